(** Lemmas about the kinematics model. *)
From Verif Require Import Prelude Keys SpecReal RealBase Kinem.
Open Scope R_scope.

Lemma cosh_neg x : cosh (- x) = cosh x.
Proof. unfold cosh. rewrite Ropp_involutive. lra. Qed.
Lemma sinh_neg x : sinh (- x) = - sinh x.
Proof. unfold sinh. rewrite Ropp_involutive. lra. Qed.
Lemma cosh_sinh x : cosh x * cosh x - sinh x * sinh x = 1.
Proof. unfold cosh, sinh. pose proof (exp_plus x (- x)) as H. rewrite Rplus_opp_r, exp_0 in H. nra. Qed.
Lemma cosh_plus_sinh x : cosh x + sinh x = exp x. Proof. unfold cosh, sinh. lra. Qed.
Lemma cosh_minus_sinh x : cosh x - sinh x = exp (- x). Proof. unfold cosh, sinh. lra. Qed.
Lemma cosh_add a b : cosh (a + b) = cosh a * cosh b + sinh a * sinh b.
Proof. unfold cosh, sinh. rewrite Ropp_plus_distr, !exp_plus. field. Qed.
Lemma sinh_add a b : sinh (a + b) = sinh a * cosh b + cosh a * sinh b.
Proof. unfold cosh, sinh. rewrite Ropp_plus_distr, !exp_plus. field. Qed.
Lemma cosh_pos x : 0 < cosh x.
Proof. unfold cosh. pose proof (exp_pos x). pose proof (exp_pos (- x)). lra. Qed.
Lemma sinh_gt x : 0 < x -> 0 < sinh x.
Proof. intros H. unfold sinh. assert (exp (- x) < exp x) by (apply exp_increasing; lra). lra. Qed.
Lemma sinh_zero x : sinh x = 0 -> x = 0.
Proof. intros H. destruct (Rtotal_order x 0) as [L|[L|L]]; [|exact L|]; [|pose proof (sinh_gt x L); lra]. pose proof (sinh_gt (- x)). rewrite sinh_neg in H0. lra. Qed.

Lemma pt_ge p : 0 <= pt p. Proof. apply sqrt_pos. Qed.
Lemma pt_sqr p : pt p * pt p = pt_sq p.
Proof. unfold pt, pt_sq. apply sqrt_sqrt. nra. Qed.
Lemma mag_eq p : spatial_mag p = sqrt (p_sq p).
Proof. unfold spatial_mag. rewrite pt_sqr. unfold p_sq, pt_sq. f_equal. ring. Qed.
Lemma p_sq_ge p : 0 <= p_sq p. Proof. unfold p_sq. nra. Qed.
Lemma mag_sqr p : spatial_mag p * spatial_mag p = p_sq p.
Proof. rewrite mag_eq. apply sqrt_sqrt, p_sq_ge. Qed.
Lemma mag_ge p : 0 <= spatial_mag p. Proof. apply sqrt_pos. Qed.

Lemma sqr_sub x1 x2 : Rabs x1 * Rabs x1 - Rabs x2 * Rabs x2 = x1 * x1 - x2 * x2.
Proof. rewrite <- !Rabs_mult. rewrite !(Rabs_pos_eq (_ * _)) by nra. reflexivity. Qed.

Lemma root_diff_spec x1 x2 : signed_root (x1 * x1 - x2 * x2) (root_diff_two_squares x1 x2).
Proof.
  unfold signed_root, root_diff_two_squares. pose proof (Rabs_pos x1) as H1. pose proof (Rabs_pos x2) as H2.
  rewrite <- (sqr_sub x1 x2). set (a := Rabs x1) in *. set (b := Rabs x2) in *. clearbody a b.
  pose proof (sqrt_sqrt (a + b) ltac:(lra)) as HS. pose proof (sqrt_pos (a + b)) as HP.
  pose proof (sqrt_sqrt (Rabs (a - b)) (Rabs_pos _)) as HD. pose proof (sqrt_pos (Rabs (a - b))) as HQ.
  unfold copysign. rewrite (Rabs_pos_eq (sqrt (Rabs (a - b)))) by exact HQ.
  replace (a * a - b * b) with ((a - b) * (a + b)) by ring. rewrite Rabs_mult, (Rabs_pos_eq (a + b)) by lra.
  set (s := sqrt (a + b)) in *. set (q := sqrt (Rabs (a - b))) in *.
  destruct (Rlt_dec (a - b) 0) as [L|L].
  - split; [|replace (- q * s * ((a - b) * (a + b))) with ((q * s) * ((b - a) * (a + b))) by ring; apply Rmult_le_pos; apply Rmult_le_pos; lra].
    replace (- q * s * (- q * s)) with ((q * q) * (s * s)) by ring. rewrite HD, HS. reflexivity.
  - split; [|apply Rmult_le_pos; apply Rmult_le_pos; lra].
    replace (q * s * (q * s)) with ((q * q) * (s * s)) by ring. rewrite HD, HS. reflexivity.
Qed.

Lemma boost_boosted d p : boosted d p (boost d p).
Proof. unfold boosted, boost; cbn. rewrite cosh_neg, sinh_neg. repeat split; ring. Qed.
Lemma rotate_rotated a p : rotated a p (rotate a p).
Proof. unfold rotated, rotate; cbn. repeat split; ring. Qed.

Lemma mom_eq p q : px p = px q -> py p = py q -> pz p = pz q -> en p = en q -> p = q.
Proof. destruct p, q; cbn. congruence. Qed.

Lemma boosted_fun d p q : boosted d p q -> q = boost d p.
Proof. intros (A & B & C & D). destruct (boost_boosted d p) as (A' & B' & C' & D'). apply mom_eq; congruence. Qed.

Lemma boost_comp a b p : boost b (boost a p) = boost (a + b) p.
Proof.
  destruct (boost_boosted a p) as (A & B & C & D). destruct (boost_boosted b (boost a p)) as (A' & B' & C' & D').
  destruct (boost_boosted (a + b) p) as (A2 & B2 & C2 & D2). apply mom_eq; [congruence|congruence| |].
  - rewrite C', C2, C, D, cosh_add, sinh_add. ring.
  - rewrite D', D2, C, D, cosh_add, sinh_add. ring.
Qed.
Lemma boost_0 p : boost 0 p = p.
Proof. destruct (boost_boosted 0 p) as (A & B & C & D). rewrite cosh_0, sinh_0 in *. apply mom_eq; lra. Qed.

Lemma boosted_plus d p q : boosted d p q -> en q + pz q = exp d * (en p + pz p).
Proof. intros (_ & _ & -> & ->). rewrite <- cosh_plus_sinh. ring. Qed.
Lemma boosted_minus d p q : boosted d p q -> en q - pz q = exp (- d) * (en p - pz p).
Proof. intros (_ & _ & -> & ->). rewrite <- cosh_minus_sinh. ring. Qed.

Lemma boosted_timelike d p q : boosted d p q -> Rabs (pz p) < en p -> Rabs (pz q) < en q.
Proof.
  intros H L. pose proof (boosted_plus d p q H) as A. pose proof (boosted_minus d p q H) as B.
  apply Rabs_def2 in L as [L1 L2]. pose proof (exp_pos d). pose proof (exp_pos (- d)). apply Rabs_def1; nra.
Qed.

Lemma true_rap_boost d p q : boosted d p q -> Rabs (pz p) < en p -> true_rap q = true_rap p + d.
Proof.
  intros H L. unfold true_rap. rewrite (boosted_plus d p q H), (boosted_minus d p q H). apply Rabs_def2 in L as [L1 L2].
  replace (exp d * (en p + pz p) / (exp (- d) * (en p - pz p))) with (exp (d + d) * ((en p + pz p) / (en p - pz p))).
  - rewrite ln_mult; [rewrite ln_exp; lra | apply exp_pos | apply Rdiv_lt_0_compat; lra].
  - rewrite exp_plus, exp_Ropp. pose proof (exp_pos d). field. split; lra.
Qed.

Lemma true_rap_odd p : Rabs (pz p) < en p -> true_rap (flip_z p) = - true_rap p.
Proof.
  intros L. apply Rabs_def2 in L as [L1 L2]. unfold true_rap, flip_z; cbn.
  replace ((en p + - pz p) / (en p - - pz p)) with (/ ((en p + pz p) / (en p - pz p))) by (field; lra).
  rewrite ln_Rinv by (apply Rdiv_lt_0_compat; lra). ring.
Qed.

Lemma true_rap_nonneg p : 0 <= pz p < en p -> 0 <= true_rap p.
Proof.
  intros (A & B). unfold true_rap. assert (0 <= ln ((en p + pz p) / (en p - pz p))); [|lra]. rewrite <- ln_1.
  destruct (Req_dec (pz p) 0) as [E|E]; [rewrite E; right; f_equal; field; lra|]. left. apply ln_increasing; [lra|].
  apply Rmult_lt_reg_r with (en p - pz p); [lra|]. field_simplify; lra.
Qed.

Lemma rapidity_fin tol p : 0 <= tol -> tol < en p - Rabs (pz p) -> rapidity tol p = Fin (true_rap p).
Proof.
  intros HT L. unfold rapidity. pose proof (Rabs_pos (pz p)) as HA. rewrite (Rabs_pos_eq (en p - Rabs (pz p))) by lra.
  destruct (Rlt_dec tol (en p - Rabs (pz p))) as [_|N]; [|contradiction]. unfold log_ext.
  destruct (Rlt_dec 0 ((en p + Rabs (pz p)) / (en p - Rabs (pz p)))) as [_|N]; [|exfalso; apply N; apply Rdiv_lt_0_compat; lra].
  cbn [half ecopysign]. f_equal. unfold copysign.
  destruct (Rlt_dec (pz p) 0) as [S|S].
  - rewrite (Rabs_left (pz p)) in * by exact S. pose proof (true_rap_nonneg (flip_z p)) as G. cbn in G. specialize (G ltac:(lra)).
    change (/ 2 * ln ((en p + - pz p) / (en p - - pz p))) with (true_rap (flip_z p)). rewrite Rabs_pos_eq by exact G.
    rewrite true_rap_odd; [ring|]. rewrite Rabs_left; lra.
  - rewrite (Rabs_pos_eq (pz p)) in * by lra. pose proof (true_rap_nonneg p ltac:(lra)) as G. apply Rabs_pos_eq. exact G.
Qed.

Lemma rapidity_inf tol p : Rabs (en p - Rabs (pz p)) <= tol -> rapidity tol p = if Rlt_dec (pz p) 0 then NInf else PInf.
Proof. intros H. unfold rapidity. destruct (Rlt_dec tol (Rabs (en p - Rabs (pz p)))); [lra|]. reflexivity. Qed.

(** For E >= |pz| the reported rapidity is finite only beyond the tolerance. *)
Lemma rapidity_fin_inv tol p y : 0 <= tol -> Rabs (pz p) <= en p -> rapidity tol p = Fin y -> tol < en p - Rabs (pz p) /\ y = true_rap p.
Proof.
  intros HT HE H. destruct (Rle_dec (en p - Rabs (pz p)) tol) as [L|L].
  - exfalso. rewrite rapidity_inf in H by (rewrite Rabs_pos_eq; lra). destruct (Rlt_dec (pz p) 0); discriminate.
  - split; [lra|]. rewrite rapidity_fin in H by lra. congruence.
Qed.

Lemma eta_fin p : 0 < pt_sq p -> eta p = Fin (pseudo_rap p).
Proof.
  intros H. unfold eta. assert (HM : 0 < p_sq p) by (unfold p_sq, pt_sq in *; nra).
  assert (HS : 0 < spatial_mag p) by (rewrite mag_eq; apply sqrt_lt_R0; exact HM).
  assert (HZ : pz p * pz p < spatial_mag p * spatial_mag p) by (rewrite mag_sqr; unfold p_sq, pt_sq in *; lra).
  assert (HB : - spatial_mag p < pz p < spatial_mag p) by (split; nra).
  destruct (Req_EM_T (spatial_mag p) 0); [lra|].
  destruct (Req_EM_T (pz p / spatial_mag p) 1) as [E|_].
  { exfalso. assert (pz p = spatial_mag p); [|lra]. apply (Rmult_eq_reg_r (/ spatial_mag p)); [|apply Rinv_neq_0_compat; lra]. rewrite Rinv_r by lra. exact E. }
  destruct (Req_EM_T (pz p / spatial_mag p) (-1)) as [E|_].
  { exfalso. assert (pz p = - spatial_mag p); [|lra]. apply (Rmult_eq_reg_r (/ spatial_mag p)); [|apply Rinv_neq_0_compat; lra]. rewrite Ropp_mult_distr_l_reverse, Rinv_r by lra. exact E. }
  f_equal. unfold arctanh, pseudo_rap. rewrite <- mag_eq. f_equal. f_equal. field. lra.
Qed.

(** sinh of the pseudorapidity is pz / pT. *)
Lemma sinh_half_ln a b : 0 < a -> 0 < b -> sinh (/ 2 * ln (a / b)) = (a - b) / (2 * sqrt (a * b)).
Proof.
  intros Ha Hb. assert (E : exp (/ 2 * ln (a / b)) = sqrt a / sqrt b).
  { apply Rsqr_inj; [left; apply exp_pos | apply Rlt_le, Rdiv_lt_0_compat; apply sqrt_lt_R0; assumption |]. unfold Rsqr.
    rewrite <- exp_plus. replace (/ 2 * ln (a / b) + / 2 * ln (a / b)) with (ln (a / b)) by lra. rewrite exp_ln by (apply Rdiv_lt_0_compat; assumption).
    replace (sqrt a / sqrt b * (sqrt a / sqrt b)) with ((sqrt a * sqrt a) / (sqrt b * sqrt b)) by (field; apply Rgt_not_eq, sqrt_lt_R0; assumption).
    rewrite !sqrt_sqrt by lra. reflexivity. }
  unfold sinh. rewrite exp_Ropp, E. rewrite sqrt_mult by lra.
  assert (0 < sqrt a) by (apply sqrt_lt_R0; assumption). assert (0 < sqrt b) by (apply sqrt_lt_R0; assumption).
  replace (a - b) with (sqrt a * sqrt a - sqrt b * sqrt b) by (rewrite !sqrt_sqrt by lra; reflexivity). field. lra.
Qed.

Lemma sinh_inj a b : sinh a = sinh b -> a = b.
Proof.
  intros H. apply Rminus_diag_uniq. apply sinh_zero.
  assert (E : (exp a - exp b) * (1 + exp (- a) * exp (- b)) = 0).
  { unfold sinh in H. pose proof (exp_plus a (- a)) as A. pose proof (exp_plus b (- b)) as B. rewrite Rplus_opp_r, exp_0 in A, B.
    replace ((exp a - exp b) * (1 + exp (- a) * exp (- b))) with (exp a - exp b + (exp a * exp (- a)) * exp (- b) - (exp b * exp (- b)) * exp (- a)) by ring. rewrite <- A, <- B. lra. }
  apply Rmult_integral in E as [E|E].
  - assert (a = b) by (apply exp_inv; lra). subst. rewrite Rminus_diag_eq by reflexivity. apply sinh_0.
  - pose proof (exp_pos (- a)). pose proof (exp_pos (- b)). nra.
Qed.

Lemma sinh_lt a b : a < b -> sinh a < sinh b.
Proof. intros H. unfold sinh. assert (exp a < exp b) by (apply exp_increasing; lra). assert (exp (- b) < exp (- a)) by (apply exp_increasing; lra). lra. Qed.

Lemma sinh_pseudo p : 0 < pt_sq p -> sinh (pseudo_rap p) = pz p / sqrt (pt_sq p).
Proof.
  intros H. unfold pseudo_rap. pose proof (mag_sqr p) as HM. rewrite mag_eq in HM. pose proof (sqrt_pos (p_sq p)) as HP. set (m := sqrt (p_sq p)) in *.
  assert (HB : - m < pz p < m). { unfold p_sq, pt_sq in *. split; nra. }
  rewrite sinh_half_ln by lra. replace ((m + pz p) * (m - pz p)) with (pt_sq p) by (unfold p_sq, pt_sq in *; lra).
  field. apply Rgt_not_eq, sqrt_lt_R0, H.
Qed.

Lemma sinh_true_rap p : Rabs (pz p) < en p -> sinh (true_rap p) = pz p / sqrt (en p * en p - pz p * pz p).
Proof.
  intros H. apply Rabs_def2 in H as [H1 H2]. unfold true_rap. rewrite sinh_half_ln by lra.
  replace ((en p + pz p) * (en p - pz p)) with (en p * en p - pz p * pz p) by ring. field. apply Rgt_not_eq, sqrt_lt_R0. nra.
Qed.

(** Sums commute with boosts and rotations. *)
Lemma msum_boost d l : msum (map (boost d) l) = boost d (msum l).
Proof.
  induction l as [|p r IH]; cbn [map msum].
  - unfold boost, mzero. cbn. apply mom_eq; cbn; lra.
  - rewrite IH. apply mom_eq; cbn; ring.
Qed.
Lemma msum_rotate a l : msum (map (rotate a) l) = rotate a (msum l).
Proof.
  induction l as [|p r IH]; cbn [map msum].
  - unfold rotate, mzero. cbn. apply mom_eq; cbn; lra.
  - rewrite IH. apply mom_eq; cbn; ring.
Qed.

Lemma mink_boost d p q : mink (boost d p) (boost d q) = mink p q.
Proof. unfold mink, boost; cbn. rewrite cosh_neg, sinh_neg. transitivity ((cosh d * cosh d - sinh d * sinh d) * (en p * en q - pz p * pz q) - px p * px q - py p * py q); [ring|]. rewrite cosh_sinh. ring. Qed.
Lemma mink_rotate a p q : mink (rotate a p) (rotate a q) = mink p q.
Proof. unfold mink, rotate; cbn. transitivity (en p * en q - (Rsqr (sin a) + Rsqr (cos a)) * (px p * px q + py p * py q) - pz p * pz q); [unfold Rsqr; ring|]. rewrite sin2_cos2. ring. Qed.

Lemma spread_length n s ds : spread n s = Ok ds -> length ds = n.
Proof.
  destruct s as [x|l]; cbn; [intros H; injection H as <-; apply repeat_length|].
  destruct l as [|a [|b l]]; cbn.
  - destruct n; [intros H; injection H as <-; reflexivity|discriminate].
  - intros H; injection H as <-. apply repeat_length.
  - destruct n as [|[|n]]; try discriminate. destruct (Nat.eqb_spec (length l) n); [|discriminate]. intros H; injection H as <-. cbn. congruence.
Qed.
Lemma map2_repeat {A B C} (f : A -> B -> C) x l : map2 f (repeat x (length l)) l = map (f x) l.
Proof. induction l as [|y r IH]; cbn; [reflexivity|]. rewrite IH. reflexivity. Qed.

Lemma mass_root p : signed_root (mink p p) (mass p).
Proof.
  unfold mass. pose proof (root_diff_spec (en p) (spatial_mag p)) as H. rewrite mag_sqr in H.
  replace (mink p p) with (en p * en p - p_sq p) by (unfold mink, p_sq; ring). exact H.
Qed.
Lemma mass_inv p q : mink p p = mink q q -> mass p = mass q.
Proof. intros H. eapply signed_root_unique; [apply mass_root|]. rewrite H. apply mass_root. Qed.
