(** C159: invariant masses of sums; C160: the coordinates determine the momentum.  Exact arithmetic. *)
From Verif Require Import Prelude SpecReal RealBase Kinem KinemProofs SpecShapes ShapesProofs P_Coords.
Open Scope R_scope.

(** Energy at least the size of the momentum. *)
Definition physical (p : mom) : Prop := norm3 p <= en p.

Lemma dot3_le p q : dot3 p q <= norm3 p * norm3 q.
Proof.
  assert (L : dot3 p q * dot3 p q <= (norm3 p * norm3 q) * (norm3 p * norm3 q)).
  { assert (dot3 p q * dot3 p q + ((py p * pz q - pz p * py q) * (py p * pz q - pz p * py q) + (pz p * px q - px p * pz q) * (pz p * px q - px p * pz q) + (px p * py q - py p * px q) * (px p * py q - py p * px q)) = p_sq p * p_sq q) by (unfold dot3, p_sq; ring).
    pose proof (Rle_0_sqr (py p * pz q - pz p * py q)). pose proof (Rle_0_sqr (pz p * px q - px p * pz q)). pose proof (Rle_0_sqr (px p * py q - py p * px q)). unfold Rsqr in *.
    replace (norm3 p * norm3 q * (norm3 p * norm3 q)) with ((norm3 p * norm3 p) * (norm3 q * norm3 q)) by ring. rewrite !norm3_sq. lra. }
  pose proof (norm3_nonneg p). pose proof (norm3_nonneg q). assert (0 <= norm3 p * norm3 q) by (apply Rmult_le_pos; assumption).
  destruct (Rle_dec (dot3 p q) (norm3 p * norm3 q)) as [H2|H2]; [exact H2|exfalso]. set (d := dot3 p q) in *. set (w := norm3 p * norm3 q) in *. clearbody d w. assert (w * w < d * d); [|lra]. apply Rmult_le_0_lt_compat; lra.
Qed.
Lemma mink_psq p q : mink p q = en p * en q - dot3 p q. Proof. unfold mink, dot3. ring. Qed.
Lemma mink_physical p : physical p -> 0 <= mink p p.
Proof. intros H. rewrite mink_psq. change (dot3 p p) with (p_sq p). rewrite <- norm3_sq. pose proof (norm3_nonneg p). unfold physical in H. assert (norm3 p * norm3 p <= en p * en p) by (apply Rmult_le_compat; lra). lra. Qed.
Lemma madd_physical p q : physical p -> physical q -> physical (madd p q).
Proof.
  unfold physical. intros Hp Hq. pose proof (norm3_nonneg p) as P0. pose proof (norm3_nonneg q) as Q0. cbn [madd en]. apply Rle_trans with (norm3 p + norm3 q); [|lra].
  assert (E : norm3 (madd p q) * norm3 (madd p q) = norm3 p * norm3 p + norm3 q * norm3 q + 2 * dot3 p q) by (rewrite !norm3_sq; unfold p_sq, madd, dot3; cbn; ring).
  pose proof (dot3_le p q) as D. pose proof (norm3_nonneg (madd p q)) as S0. set (a := norm3 p) in *. set (b := norm3 q) in *. set (s := norm3 (madd p q)) in *. set (d := dot3 p q) in *. clearbody a b s d.
  destruct (Rle_dec s (a + b)) as [L|L]; [exact L|exfalso]. assert ((a + b) * (a + b) < s * s) by (apply Rmult_le_0_lt_compat; lra). lra.
Qed.
Lemma msum_physical l : (forall p, In p l -> physical p) -> physical (msum l).
Proof.
  induction l as [|p l IH]; intros H; cbn [msum].
  - unfold physical, norm3, p_sq, mzero; cbn. replace (0 * 0 + 0 * 0 + 0 * 0) with 0 by ring. rewrite sqrt_0. lra.
  - apply madd_physical; [apply H; left; reflexivity | apply IH; intros q Hq; apply H; right; exact Hq].
Qed.
(** Reversed Cauchy-Schwarz and reversed triangle inequality for physical momenta. *)
Lemma mink_cross p q : physical p -> physical q -> sqrt (mink p p) * sqrt (mink q q) <= mink p q.
Proof.
  intros Hp Hq. pose proof (mink_physical p Hp) as Mp. pose proof (mink_physical q Hq) as Mq. pose proof (norm3_nonneg p) as P0. pose proof (norm3_nonneg q) as Q0. pose proof (dot3_le p q) as D.
  assert (B : sqrt (mink p p) * sqrt (mink q q) <= en p * en q - norm3 p * norm3 q).
  { rewrite <- sqrt_mult by assumption. unfold physical in *. assert (N : 0 <= en p * en q - norm3 p * norm3 q) by (assert (norm3 p * norm3 q <= en p * en q) by (apply Rmult_le_compat; lra); lra).
    rewrite <- (sqrt_square _ N). apply sqrt_le_1_alt. rewrite !mink_psq. change (dot3 p p) with (p_sq p). change (dot3 q q) with (p_sq q). rewrite <- !norm3_sq.
    pose proof (Rle_0_sqr (en p * norm3 q - en q * norm3 p)) as S. unfold Rsqr in S. lra. }
  rewrite (mink_psq p q). lra.
Qed.
Lemma mass_super p q : physical p -> physical q -> sqrt (mink p p) + sqrt (mink q q) <= sqrt (mink (madd p q) (madd p q)).
Proof.
  intros Hp Hq. pose proof (mink_cross p q Hp Hq) as C. pose proof (mink_physical p Hp) as Mp. pose proof (mink_physical q Hq) as Mq.
  assert (E : mink (madd p q) (madd p q) = mink p p + 2 * mink p q + mink q q) by (unfold mink, madd; cbn; ring). pose proof (sqrt_pos (mink p p)). pose proof (sqrt_pos (mink q q)).
  assert (N : 0 <= sqrt (mink p p) + sqrt (mink q q)) by lra. rewrite <- (sqrt_square _ N). apply sqrt_le_1_alt. rewrite E.
  pose proof (sqrt_sqrt _ Mp). pose proof (sqrt_sqrt _ Mq). set (a := sqrt (mink p p)) in *. set (b := sqrt (mink q q)) in *. clearbody a b. replace ((a + b) * (a + b)) with (a * a + 2 * (a * b) + b * b) by ring. lra.
Qed.
Lemma mass_physical p : physical p -> mass p = sqrt (mink p p).
Proof.
  intros H. pose proof (mink_physical p H) as M. apply signed_root_unique with (mink p p); [apply mass_root|]. split; [rewrite sqrt_sqrt, Rabs_pos_eq by exact M; reflexivity|]. apply Rmult_le_pos; [apply sqrt_pos|exact M].
Qed.
Lemma combined_physical l : (forall p, In p l -> physical p) -> combined_mass l NoWeight = Ok (sqrt (mink (msum l) (msum l))).
Proof.
  intros H. destruct (C68_combined_mass l) as (m & E & _ & _ & V & _). pose proof (msum_physical l H) as S. rewrite E, (V (mink_physical _ S)), (mass_physical _ S). reflexivity.
Qed.

(** The mass of a system of physical particles is at least the sum of the masses of any two parts, hence at least that of
    every part, and at least the sum of the particles' masses. *)
Theorem C159_parts : forall l1 l2, (forall p, In p (l1 ++ l2) -> physical p) ->
  exists m1 m2 m, combined_mass l1 NoWeight = Ok m1 /\ combined_mass l2 NoWeight = Ok m2 /\ combined_mass (l1 ++ l2) NoWeight = Ok m /\ 0 <= m1 /\ 0 <= m2 /\ m1 + m2 <= m.
Proof.
  intros l1 l2 H. assert (H1 : forall p, In p l1 -> physical p) by (intros; apply H, in_app_iff; auto). assert (H2 : forall p, In p l2 -> physical p) by (intros; apply H, in_app_iff; auto).
  rewrite (combined_physical l1 H1), (combined_physical l2 H2), (combined_physical _ H). eexists. eexists. eexists. repeat split; try apply sqrt_pos. rewrite msum_app. apply mass_super; apply msum_physical; assumption.
Qed.
Print Assumptions C159_parts.
Theorem C159_particles : forall l, (forall p, In p l -> physical p) ->
  exists m, combined_mass l NoWeight = Ok m /\ rsum (map mass l) <= m /\ (forall p, In p l -> 0 <= mass p <= m) /\
    (forall p, l = [p] -> m = mass p).
Proof.
  intros l H. rewrite (combined_physical l H). eexists. split; [reflexivity|].
  assert (S : rsum (map mass l) <= sqrt (mink (msum l) (msum l))).
  { induction l as [|p l IH]; cbn [map rsum msum]; [apply sqrt_pos|]. assert (Hp : physical p) by (apply H; left; reflexivity). assert (Hl : forall q, In q l -> physical q) by (intros q Hq; apply H; right; exact Hq).
    pose proof (mass_super p (msum l) Hp (msum_physical l Hl)). rewrite (mass_physical p Hp). specialize (IH Hl). lra. }
  split; [exact S|]. split.
  - intros p Hp. assert (M0 : forall q, In q l -> 0 <= mass q) by (intros q Hq; rewrite (mass_physical q (H q Hq)); apply sqrt_pos). split; [apply M0, Hp|]. apply Rle_trans with (rsum (map mass l)); [|exact S].
    clear S H. induction l as [|q l IH]; [destruct Hp|]. cbn [map rsum]. assert (0 <= rsum (map mass l)) by (apply rsum_map_nonneg; intros x Hx; apply M0; right; exact Hx). assert (0 <= mass q) by (apply M0; left; reflexivity).
    destruct Hp as [->|Hp]; [lra|]. assert (mass p <= rsum (map mass l)) by (apply IH; [exact Hp | intros x Hx; apply M0; right; exact Hx]). lra.
  - intros p ->. rewrite (mass_physical p) by (apply H; left; reflexivity). cbn [msum]. f_equal. unfold mink, madd, mzero; cbn. ring.
Qed.
Print Assumptions C159_particles.
Example C159_demo : physical (Mom 3 4 0 6) /\ physical (Mom 0 0 (-2) 2).
Proof.
  unfold physical, norm3, p_sq; cbn. replace (3 * 3 + 4 * 4 + 0 * 0) with (5 * 5) by ring. replace (0 * 0 + 0 * 0 + -2 * -2) with (2 * 2) by ring. rewrite !sqrt_square; lra.
Qed.

(** ** C160 *)
Lemma norm_mag p : norm3 p = spatial_mag p. Proof. symmetry. apply mag_eq. Qed.
Lemma cosh_ge_root x : cosh x = sqrt (1 + sinh x * sinh x).
Proof. pose proof (cosh_sinh x). pose proof (cosh_pos x). replace (1 + sinh x * sinh x) with (cosh x * cosh x) by lra. rewrite sqrt_square by lra. reflexivity. Qed.
Lemma half_tan t : 0 < t < PI -> tan (t / 2) = sin t / (1 + cos t) /\ 0 < 1 + cos t /\ 0 < sin t.
Proof.
  intros H. pose proof PI_RGT_0. assert (C : 0 < cos (t / 2)) by (apply cos_gt_0; lra). assert (S : 0 < sin (t / 2)) by (apply sin_gt_0; lra).
  assert (ES : sin t = 2 * sin (t / 2) * cos (t / 2)) by (rewrite <- sin_2a; f_equal; field). assert (EC : cos t = 2 * cos (t / 2) * cos (t / 2) - 1) by (rewrite <- cos_2a_cos; f_equal; field).
  assert (0 < cos (t / 2) * cos (t / 2)) by (apply Rmult_lt_0_compat; exact C). assert (0 < sin (t / 2) * cos (t / 2)) by (apply Rmult_lt_0_compat; assumption).
  split; [|lra]. unfold tan. rewrite ES, EC. field. split; [lra|]. lra.
Qed.

(** For every physical momentum away from the beam, the coordinates read from the array are finite and rebuild the
    components; rapidity never exceeds pseudorapidity, and agrees with it exactly when the particle is massless or transverse. *)
Theorem C160_rebuild : forall p, ZERO_TOL < pt p -> physical p -> ZERO_TOL < en p - Rabs (pz p) ->
  exists h y f, eta p = Fin h /\ rapidity ZERO_TOL p = Fin y /\ phi p = Fin f /\
    px p = pt p * cos f /\ py p = pt p * sin f /\ pz p = pt p * sinh h /\ spatial_mag p = pt p * cosh h /\
    pz p = mass_t p * sinh y /\ en p = mass_t p * cosh y /\
    mass_t p * mass_t p = mass p * mass p + pt p * pt p /\ en p * en p = mass p * mass p + spatial_mag p * spatial_mag p /\ 0 <= mass p /\ 0 < mass_t p /\
    (0 < theta p < PI /\ h = - ln (tan (theta p / 2)) /\ pz p = spatial_mag p * cos (theta p) /\ pt p = spatial_mag p * sin (theta p)) /\
    Rabs y <= Rabs h /\ 0 <= y * h /\ (y = h <-> mass p = 0 \/ pz p = 0).
Proof.
  intros p HT HP HE. assert (Z : 0 < ZERO_TOL) by (unfold ZERO_TOL; lra). assert (PT : 0 < pt p) by lra. pose proof (pt_sqr p) as PS. assert (PQ : 0 < pt_sq p) by (rewrite <- PS; apply Rmult_lt_0_compat; exact PT).
  assert (EP : sqrt (pt_sq p) = pt p) by (rewrite <- PS; apply sqrt_square; lra).
  assert (LZ : Rabs (pz p) < en p) by lra. pose proof (mink_physical p HP) as M0. pose proof (mass_physical p HP) as ME. unfold physical in HP; rewrite norm_mag in HP.
  destruct (Rabs_def2 _ _ LZ) as (L1 & L2).
  assert (MT0 : 0 < en p * en p - pz p * pz p) by (replace (en p * en p - pz p * pz p) with ((en p - pz p) * (en p + pz p)) by ring; apply Rmult_lt_0_compat; lra).
  assert (MT : mass_t p = sqrt (en p * en p - pz p * pz p)).
  { apply signed_root_unique with (en p * en p - pz p * pz p); [apply root_diff_spec|]. split; [rewrite sqrt_sqrt, Rabs_pos_eq by lra; reflexivity | apply Rmult_le_pos; [apply sqrt_pos|lra]]. }
  assert (MTP : 0 < mass_t p) by (rewrite MT; apply sqrt_lt_R0, MT0). assert (MT2 : mass_t p * mass_t p = en p * en p - pz p * pz p) by (rewrite MT; apply sqrt_sqrt; lra).
  assert (M2 : mass p * mass p = en p * en p - p_sq p) by (rewrite ME, sqrt_sqrt by exact M0; rewrite mink_psq; reflexivity).
  assert (PZ : p_sq p = pt_sq p + pz p * pz p) by (unfold p_sq, pt_sq; ring). pose proof (mag_sqr p) as MG. pose proof (mag_ge p) as MG0.
  pose proof (sinh_pseudo p PQ) as SH. rewrite EP in SH. pose proof (sinh_true_rap p LZ) as SY. rewrite <- MT in SY.
  set (h := pseudo_rap p) in *. set (y := true_rap p) in *.
  assert (F1 : pz p = pt p * sinh h) by (rewrite SH; field; lra). assert (F2 : pz p = mass_t p * sinh y) by (rewrite SY; field; lra).
  assert (F3 : spatial_mag p = pt p * cosh h).
  { rewrite mag_eq. replace (p_sq p) with ((pt p * cosh h) * (pt p * cosh h)); [apply sqrt_square; apply Rmult_le_pos; [lra|pose proof (cosh_pos h); lra]|]. pose proof (cosh_sinh h). rewrite PZ, <- PS. rewrite F1. replace (pt p * cosh h * (pt p * cosh h)) with (pt p * pt p * (cosh h * cosh h)) by ring. replace (cosh h * cosh h) with (1 + sinh h * sinh h) by lra. ring. }
  assert (F4 : en p = mass_t p * cosh y).
  { assert (E2 : en p * en p = (mass_t p * cosh y) * (mass_t p * cosh y)) by (pose proof (cosh_sinh y); replace (mass_t p * cosh y * (mass_t p * cosh y)) with (mass_t p * mass_t p * (cosh y * cosh y)) by ring; replace (cosh y * cosh y) with (1 + sinh y * sinh y) by lra; replace (mass_t p * mass_t p * (1 + sinh y * sinh y)) with (mass_t p * mass_t p + (mass_t p * sinh y) * (mass_t p * sinh y)) by ring; rewrite <- F2, MT2; ring).
    apply Rsqr_inj; [pose proof (Rabs_pos (pz p)); lra | apply Rmult_le_pos; [lra|pose proof (cosh_pos y); lra] | exact E2]. }
  assert (MTPT : mass_t p * mass_t p = mass p * mass p + pt p * pt p) by (rewrite MT2, M2, PZ, PS; ring).
  assert (GE : pt p <= mass_t p). { assert (0 <= mass p * mass p) by (rewrite M2; rewrite mink_psq in M0; exact M0). destruct (Rle_dec (pt p) (mass_t p)) as [L|L]; [exact L|exfalso]. assert (mass_t p * mass_t p < pt p * pt p) by (apply Rmult_le_0_lt_compat; lra). lra. }
  exists h, y, (atan2 (py p) (px p)). split; [apply eta_fin, PQ|]. split; [apply rapidity_fin; [lra|exact HE]|].
  destruct (atan2_spec (py p) (px p)) as (_ & FX & FY). fold (pt p) in FX, FY.
  split; [unfold phi; rewrite Rabs_pos_eq by lra; destruct (Rle_dec (pt p) ZERO_TOL); [lra|reflexivity]|].
  split; [exact FX|]. split; [exact FY|]. split; [exact F1|]. split; [exact F3|]. split; [exact F2|]. split; [exact F4|]. split; [exact MTPT|]. split; [rewrite MG, M2; ring|].
  split; [rewrite ME; apply sqrt_pos|]. split; [exact MTP|].
  destruct (atan2_spec (pt p) (pz p)) as (TB & TX & TY). fold (theta p) in TB, TX, TY. fold (spatial_mag p) in TX, TY.
  assert (SM : 0 < spatial_mag p) by (rewrite F3; apply Rmult_lt_0_compat; [exact PT|apply cosh_pos]).
  assert (SP : 0 < sin (theta p)) by (destruct (Rle_dec (sin (theta p)) 0) as [L|L]; [exfalso; assert (0 <= spatial_mag p * - sin (theta p)) by (apply Rmult_le_pos; lra); lra | lra]).
  assert (TR : 0 < theta p < PI).
  { pose proof PI_RGT_0. split.
    - destruct (Rle_dec (theta p) 0) as [L|L]; [exfalso|lra]. assert (0 <= sin (- theta p)) by (apply sin_ge_0; lra). rewrite sin_neg in H0. lra.
    - destruct (Req_dec (theta p) PI) as [E|E]; [|lra]. rewrite E, sin_PI in SP. lra. }
  destruct (half_tan (theta p) TR) as (HTAN & C1 & _).
  split.
  - split; [exact TR|]. split; [|auto]. rewrite HTAN.
    assert (E1 : sin (theta p) / (1 + cos (theta p)) = pt p / (spatial_mag p + pz p)).
    { transitivity ((spatial_mag p * sin (theta p)) / (spatial_mag p + spatial_mag p * cos (theta p))); [|rewrite <- TX, <- TY; reflexivity].
      field. split; [|lra]. replace (spatial_mag p + spatial_mag p * cos (theta p)) with (spatial_mag p * (1 + cos (theta p))) by ring. apply Rgt_not_eq, Rmult_lt_0_compat; lra. }
    rewrite E1. assert (A1 : 0 < spatial_mag p + pz p) by (rewrite TX; replace (spatial_mag p + spatial_mag p * cos (theta p)) with (spatial_mag p * (1 + cos (theta p))) by ring; apply Rmult_lt_0_compat; lra).
    assert (A2 : (spatial_mag p + pz p) * (spatial_mag p - pz p) = pt p * pt p) by (replace ((spatial_mag p + pz p) * (spatial_mag p - pz p)) with (spatial_mag p * spatial_mag p - pz p * pz p) by ring; rewrite MG, PZ, PS; ring).
    assert (A3 : 0 < spatial_mag p - pz p). { apply (Rmult_lt_reg_l (spatial_mag p + pz p)); [exact A1|]. rewrite Rmult_0_r, A2. apply Rmult_lt_0_compat; exact PT. }
    unfold h, pseudo_rap. rewrite <- mag_eq. rewrite <- ln_Rinv by (apply Rdiv_lt_0_compat; lra). replace (/ (pt p / (spatial_mag p + pz p))) with ((spatial_mag p + pz p) / pt p) by (field; lra).
    assert (E2 : (spatial_mag p + pz p) / (spatial_mag p - pz p) = ((spatial_mag p + pz p) / pt p) * ((spatial_mag p + pz p) / pt p)).
    { apply (Rmult_eq_reg_r ((spatial_mag p - pz p) * (pt p * pt p))); [|apply Rgt_not_eq; apply Rmult_lt_0_compat; [exact A3|apply Rmult_lt_0_compat; exact PT]].
      transitivity ((spatial_mag p + pz p) * (pt p * pt p)); [field; lra|]. rewrite <- A2 at 1. field. lra. }
    rewrite E2, ln_mult by (apply Rdiv_lt_0_compat; lra). lra.
  - assert (INV : / mass_t p <= / pt p) by (apply Rinv_le_contravar; lra). pose proof (Rinv_0_lt_compat _ MTP) as I1. pose proof (Rinv_0_lt_compat _ PT) as I2.
    assert (MON : forall a b, sinh a <= sinh b -> a <= b) by (intros a b HH; destruct (Rle_dec a b) as [L|L]; [exact L|exfalso; assert (sinh b < sinh a) by (apply sinh_lt; lra); lra]).
    assert (EQ : y = h <-> mass p = 0 \/ pz p = 0).
    { split.
      - intros E. destruct (Req_dec (pz p) 0) as [E0|E0]; [right; exact E0|left]. rewrite <- E in F1. assert (sinh y <> 0) by (intros Q; rewrite Q, Rmult_0_r in F1; contradiction).
        assert (ET : pt p = mass_t p) by (apply (Rmult_eq_reg_r (sinh y)); [lra|exact H]). rewrite <- ET in MTPT. assert (mass p * mass p = 0) by lra. apply Rmult_integral in H0. tauto.
      - intros [E|E]; apply sinh_inj; rewrite SH, SY; [|rewrite E; unfold Rdiv; ring]. rewrite E in MTPT. assert (ET : mass_t p = pt p) by (apply Rsqr_inj; unfold Rsqr; lra). rewrite ET. reflexivity. }
    destruct (Rle_dec 0 (pz p)) as [S|S].
    + assert (0 <= pz p * / mass_t p) by (apply Rmult_le_pos; lra). assert (pz p * / mass_t p <= pz p * / pt p) by (apply Rmult_le_compat_l; lra). unfold Rdiv in SH, SY.
      assert (Y0 : 0 <= y) by (apply MON; rewrite sinh_0, SY; lra). assert (YH : y <= h) by (apply MON; rewrite SH, SY; lra). rewrite !Rabs_pos_eq by lra. split; [exact YH|]. split; [apply Rmult_le_pos; lra|exact EQ].
    + assert (0 <= - pz p * / mass_t p) by (apply Rmult_le_pos; lra). assert (- pz p * / mass_t p <= - pz p * / pt p) by (apply Rmult_le_compat_l; lra). unfold Rdiv in SH, SY.
      assert (Y0 : y <= 0) by (apply MON; rewrite sinh_0, SY; lra). assert (YH : h <= y) by (apply MON; rewrite SH, SY; lra). rewrite !Rabs_left1 by lra. split; [lra|]. split; [replace (y * h) with ((- y) * (- h)) by ring; apply Rmult_le_pos; lra|exact EQ].
Qed.
Print Assumptions C160_rebuild.
Example C160_demo : let p := Mom 3 4 0 6 in ZERO_TOL < pt p /\ physical p /\ ZERO_TOL < en p - Rabs (pz p).
Proof.
  cbv zeta. unfold pt, physical, norm3, p_sq, ZERO_TOL; cbn. rewrite Rabs_R0. replace (3 * 3 + 4 * 4 + 0 * 0) with (5 * 5) by ring. replace (3 * 3 + 4 * 4) with (5 * 5) by ring. rewrite !sqrt_square by lra. lra.
Qed.
