(** C131 - C137: degenerate kinematics. *)
From Verif Require Import Prelude Keys SpecReal SpecDist SpecEdge RealBase Kinem KinemProofs Par DeltaR DeltaRProofs P_Kinem P_DeltaR.
Open Scope R_scope.

(** ** C131: rapidity and pseudorapidity of any momentum *)
Lemma copysign_nonneg v s : 0 <= s -> copysign v s = Rabs v.
Proof. intros H. unfold copysign. destruct (Rlt_dec s 0); [lra|reflexivity]. Qed.
Lemma copysign_neg v s : s < 0 -> copysign v s = - Rabs v.
Proof. intros H. unfold copysign. destruct (Rlt_dec s 0); [reflexivity|lra]. Qed.

Lemma abs_le a t : Rabs a <= t -> - t <= a <= t.
Proof. unfold Rabs. destruct (Rcase_abs a); lra. Qed.
Theorem C131_rapidity : forall p, rap_is p (rapidity ZERO_TOL p).
Proof.
  intros p. assert (HZ : 0 <= ZERO_TOL) by (unfold ZERO_TOL; lra). assert (EZ : ZERO_TOL = cone_tol) by reflexivity.
  pose proof (Rabs_pos (pz p)) as AZ.
  destruct (Rlt_dec ZERO_TOL (en p - Rabs (pz p))) as [T|T].
  { rewrite rapidity_fin by assumption. apply rap_timelike. rewrite <- EZ. exact T. }
  destruct (Rle_dec (Rabs (en p - Rabs (pz p))) ZERO_TOL) as [C|C].
  { rewrite rapidity_inf by exact C. destruct (Rlt_dec (pz p) 0); [apply rap_cone_bwd|apply rap_cone_fwd]; try (rewrite <- EZ); try assumption; lra. }
  assert (S : ZERO_TOL < Rabs (pz p) - en p). { destruct (Rle_dec 0 (en p - Rabs (pz p))); [rewrite Rabs_pos_eq in C by assumption; lra|]. rewrite Rabs_left in C by lra. lra. }
  unfold rapidity. cbv zeta. destruct (Rlt_dec ZERO_TOL (Rabs (en p - Rabs (pz p)))) as [_|N]; [|lra].
  destruct (Rtotal_order (en p) (- Rabs (pz p))) as [L|[E|G]].
  - (* negative energy *)
    assert (Q : (en p + Rabs (pz p)) / (en p - Rabs (pz p)) = / ((en (flip_e p) + Rabs (pz p)) / (en (flip_e p) - Rabs (pz p)))) by (unfold flip_e; cbn [en]; field; lra).
    assert (P : 0 < (en (flip_e p) + Rabs (pz p)) / (en (flip_e p) - Rabs (pz p))) by (apply Rdiv_lt_0_compat; unfold flip_e; cbn [en]; lra).
    rewrite Q. unfold log_ext. destruct (Rlt_dec 0 (/ _)) as [_|N]; [|exfalso; apply N, Rinv_0_lt_compat, P]. rewrite ln_Rinv by exact P.
    set (u := ln _). cbn [half ecopysign].
    assert (R1 : rapidity 0 (flip_e p) = Fin (true_rap (flip_e p))) by (apply rapidity_fin; [lra|unfold flip_e; cbn [en pz]; lra]).
    assert (R2 : rapidity 0 (flip_e p) = Fin (copysign (/ 2 * u) (pz p))).
    { unfold rapidity. cbv zeta. change (pz (flip_e p)) with (pz p). destruct (Rlt_dec 0 (Rabs (en (flip_e p) - Rabs (pz p)))) as [_|N]; [|exfalso; apply N, Rabs_pos_lt; unfold flip_e; cbn [en]; lra].
      unfold log_ext. destruct (Rlt_dec 0 ((en (flip_e p) + Rabs (pz p)) / (en (flip_e p) - Rabs (pz p)))); [reflexivity|contradiction]. }
    rewrite R1 in R2. injection R2 as R2. assert (CE : copysign (/ 2 * - u) (pz p) = copysign (/ 2 * u) (pz p)) by (unfold copysign; replace (/ 2 * - u) with (- (/ 2 * u)) by ring; rewrite Rabs_Ropp; reflexivity).
    rewrite CE, <- R2. apply rap_negative; [rewrite <- EZ; exact S|exact L].
  - (* negative light cone *)
    assert (Q : (en p + Rabs (pz p)) / (en p - Rabs (pz p)) = 0) by (replace (en p + Rabs (pz p)) with 0 by lra; unfold Rdiv; apply Rmult_0_l).
    rewrite Q. unfold log_ext. destruct (Rlt_dec 0 0) as [F|_]; [lra|]. destruct (Req_EM_T 0 0) as [_|F]; [|contradiction]. cbn [half ecopysign].
    assert (NZ : pz p <> 0) by (intros Z; rewrite Z, Rabs_R0 in *; lra).
    destruct (Rlt_dec (pz p) 0) as [Z|Z]; [apply rap_negcone_bwd|apply rap_negcone_fwd]; try (rewrite <- EZ; exact S); try lra.
    + rewrite Rabs_left in E by exact Z. lra.
    + rewrite Rabs_pos_eq in E by lra. lra.
  - (* space-like *)
    assert (Q : (en p + Rabs (pz p)) / (en p - Rabs (pz p)) < 0).
    { replace ((en p + Rabs (pz p)) / (en p - Rabs (pz p))) with (- ((en p + Rabs (pz p)) / (Rabs (pz p) - en p))) by (field; lra). apply Ropp_lt_gt_0_contravar, Rdiv_lt_0_compat; lra. }
    unfold log_ext. destruct (Rlt_dec 0 _) as [F|_]; [lra|]. destruct (Req_EM_T _ 0) as [F|_]; [lra|]. cbn [half ecopysign]. apply rap_spacelike; [rewrite <- EZ; exact S|lra].
Qed.
Theorem C131_rapidity_unique : forall p a b, rap_is p a -> rap_is p b -> a = b.
Proof.
  intros p a b Ha Hb. assert (0 < cone_tol) by (unfold cone_tol; lra). pose proof (Rabs_pos (pz p)) as AZ.
  assert (A1 : 0 <= pz p -> Rabs (pz p) = pz p) by (apply Rabs_pos_eq). assert (A2 : pz p < 0 -> Rabs (pz p) = - pz p) by (apply Rabs_left).
  destruct Ha, Hb; try reflexivity; exfalso;
    repeat match goal with X : Rabs (en p - _) <= _ |- _ => apply abs_le in X end; lra.
Qed.
Theorem C131_pseudorapidity : forall p, eta_is p (eta p).
Proof.
  intros p. destruct (Rlt_dec 0 (pt_sq p)) as [T|T]; [rewrite eta_fin by exact T; apply eta_transverse, T|].
  assert (P0 : pt_sq p = 0) by (unfold pt_sq in *; pose proof (Rle_0_sqr (px p)); pose proof (Rle_0_sqr (py p)); unfold Rsqr in *; lra).
  assert (E : spatial_mag p = Rabs (pz p)). { rewrite mag_eq. unfold p_sq. fold (pt_sq p). rewrite P0, Rplus_0_l. rewrite <- sqrt_Rsqr_abs. reflexivity. }
  unfold eta. rewrite E. destruct (Req_EM_T (Rabs (pz p)) 0) as [Z|Z].
  - apply eta_rest; [exact P0|]. destruct (Req_dec (pz p) 0) as [|N]; [assumption|]. apply Rabs_no_R0 in N. contradiction.
  - destruct (Rlt_dec 0 (pz p)) as [F|F].
    + rewrite Rabs_pos_eq by lra. cbv zeta. destruct (Req_EM_T (pz p / pz p) 1) as [_|N]; [apply eta_fwd; assumption|]. exfalso. apply N. field. lra.
    + assert (B : pz p < 0). { destruct (Rtotal_order (pz p) 0) as [|[Q|]]; [assumption| |contradiction]. rewrite Q, Rabs_R0 in Z. contradiction. }
      rewrite Rabs_left by lra. cbv zeta. assert (Q : pz p / - pz p = -1) by (field; lra). rewrite Q.
      destruct (Req_EM_T (-1) 1) as [N|_]; [lra|]. destruct (Req_EM_T (-1) (-1)) as [_|N]; [apply eta_bwd; assumption|contradiction].
Qed.
Theorem C131_pseudorapidity_unique : forall p a b, eta_is p a -> eta_is p b -> a = b.
Proof. intros p a b Ha Hb. destruct Ha, Hb; try reflexivity; exfalso; lra. Qed.
(** All cases occur. *)
Example C131_demo : rap_is (Mom 1 0 1 2) (Fin (true_rap (Mom 1 0 1 2))) /\ rap_is (Mom 0 0 2 2) PInf /\ rap_is (Mom 0 0 (-2) 2) NInf /\
  rap_is (Mom 3 0 2 1) NaN /\ rap_is (Mom 0 0 2 (-2)) PInf /\ rap_is (Mom 0 0 (-2) (-2)) NInf /\ rap_is (Mom 0 0 1 (-2)) (Fin (true_rap (Mom 0 0 1 2))) /\
  eta_is (Mom 0 0 1 1) PInf /\ eta_is (Mom 0 0 0 1) NaN.
Proof.
  assert (A : forall x, 0 <= x -> Rabs x = x) by (intros; apply Rabs_pos_eq; assumption). assert (B : Rabs (-2) = 2) by (rewrite Rabs_left; lra).
  repeat split.
  - apply rap_timelike. cbn [en pz]. rewrite A by lra. unfold cone_tol. lra.
  - apply rap_cone_fwd; cbn [en pz]; [|lra]. rewrite (A 2), A by lra. unfold cone_tol. lra.
  - apply rap_cone_bwd; cbn [en pz]; [|lra]. rewrite B, A by lra. unfold cone_tol. lra.
  - apply rap_spacelike; cbn [en pz]; rewrite A by lra; unfold cone_tol; lra.
  - apply rap_negcone_fwd; cbn [en pz]; try rewrite A by lra; unfold cone_tol; lra.
  - apply rap_negcone_bwd; cbn [en pz]; try rewrite B; unfold cone_tol; lra.
  - replace (Mom 0 0 1 2) with (flip_e (Mom 0 0 1 (-2))) by (unfold flip_e; cbn [px py pz en]; f_equal; lra). apply rap_negative; cbn [en pz]; rewrite A by lra; unfold cone_tol; lra.
  - apply eta_fwd; unfold pt_sq; cbn [px py pz]; lra.
  - apply eta_rest; unfold pt_sq; cbn [px py pz]; lra.
Qed.

(** ** C132: delta_R of any two particles *)
Lemma pt_sq_cases p : 0 < pt_sq p \/ pt_sq p = 0.
Proof. unfold pt_sq. pose proof (Rle_0_sqr (px p)). pose proof (Rle_0_sqr (py p)). unfold Rsqr in *. lra. Qed.
Lemma pt_sq_zero p : pt_sq p = 0 -> px p = 0 /\ py p = 0.
Proof. apply sumsq_zero. Qed.
Lemma gap_delta_phi p q : gap_is p q (delta_phi p q).
Proof.
  destruct (pt_sq_cases p) as [P|P], (pt_sq_cases q) as [Q|Q].
  1: { left. split; [exact P|]. split; [exact Q|]. destruct (delta_phi_spec p q P Q) as (B & A). split; [exact B|]. intros a b Ha Hb. rewrite <- (atan2_unique _ _ _ P Ha), <- (atan2_unique _ _ _ Q Hb). exact A. }
  all: right; (split; [tauto|]); unfold delta_phi;
    (apply pt_sq_zero in P as (-> & ->) || apply pt_sq_zero in Q as (-> & ->)); rewrite ?Rmult_0_l, ?Rmult_0_r, ?Rminus_0_r, ?Rplus_0_r;
    unfold atan2; destruct (Rlt_dec 0 0); try lra; reflexivity.
Qed.
Lemma gap_unique p q f g : gap_is p q f -> gap_is p q g -> f = g.
Proof.
  intros [(P & Q & B & A)|(P & ->)] [(P' & Q' & B' & A')|(P' & ->)]; try reflexivity; try lra.
  specialize (A _ _ (atan2_spec (py p) (px p)) (atan2_spec (py q) (px q))). specialize (A' _ _ (atan2_spec (py p) (px p)) (atan2_spec (py q) (px q))).
  destruct A as (j & Ej). destruct A' as (k & Ek). pose proof (trig_period (atan2 (py p) (px p) - atan2 (py q) (px q)) j) as (T1 & T2). pose proof (trig_period (atan2 (py p) (px p) - atan2 (py q) (px q)) k) as (T3 & T4).
  apply angle_unique; [exact B|exact B'|rewrite Ej, Ek, T1, T3; reflexivity|rewrite Ej, Ek, T2, T4; reflexivity].
Qed.
Lemma coord_rap pseudo p : coord_is pseudo p (rap_of pseudo p).
Proof. destruct pseudo; [apply C131_pseudorapidity|apply C131_rapidity]. Qed.
Lemma coord_unique pseudo p a b : coord_is pseudo p a -> coord_is pseudo p b -> a = b.
Proof. destruct pseudo; [apply C131_pseudorapidity_unique|apply C131_rapidity_unique]. Qed.
Lemma entry_dist rap p q : delta_entry rap p q = dist_is (rap p) (rap q) (delta_phi p q).
Proof.
  unfold delta_entry. destruct (rap p) as [x| | |], (rap q) as [y| | |]; cbn; try reflexivity; f_equal; rewrite Rmult_0_l, Rplus_0_l; apply sqrt_Rsqr_abs.
Qed.
Theorem C132_any_pair : forall same pseudo l r M i j p q a b f, (same = true -> r = l) -> delta_R_call same pseudo l r M ->
  nth_error l i = Some p -> nth_error r j = Some q -> coord_is pseudo p a -> coord_is pseudo q b -> gap_is p q f ->
  at2 M i j = Some (dist_is a b f).
Proof.
  intros same pseudo l r M i j p q a b f HS H Hp Hq Ha Hb Hf. apply call_result in H; [|exact HS]. subst M. rewrite delta_R_at, Hp, Hq, entry_dist.
  rewrite (coord_unique _ _ _ _ Ha (coord_rap pseudo p)), (coord_unique _ _ _ _ Hb (coord_rap pseudo q)), (gap_unique _ _ _ _ Hf (gap_delta_phi p q)). reflexivity.
Qed.
(** The hypotheses can always be met. *)
Theorem C132_total : forall pseudo p q, exists a b f, coord_is pseudo p a /\ coord_is pseudo q b /\ gap_is p q f.
Proof. intros. do 3 eexists. split; [apply coord_rap|]. split; [apply coord_rap|apply gap_delta_phi]. Qed.
(** Consequence: particles in opposite beam directions are infinitely far apart, in the same direction 0 apart. *)
Theorem C132_beam : forall same pseudo l r M i j p q, (same = true -> r = l) -> delta_R_call same pseudo l r M ->
  nth_error l i = Some p -> nth_error r j = Some q -> pt_sq p = 0 -> pt_sq q = 0 -> pz p <> 0 -> pz q <> 0 -> en p = Rabs (pz p) -> en q = Rabs (pz q) ->
  at2 M i j = Some (if Rlt_dec 0 (pz p * pz q) then Fin 0 else PInf).
Proof.
  intros same pseudo l r M i j p q HS H Hp Hq P0 Q0 PZ QZ PE QE.
  assert (K : forall x, pt_sq x = 0 -> pz x <> 0 -> en x = Rabs (pz x) -> coord_is pseudo x (if Rlt_dec 0 (pz x) then PInf else NInf)).
  { intros x X0 XZ XE. assert (C : Rabs (en x - Rabs (pz x)) <= cone_tol) by (rewrite XE; replace (Rabs (pz x) - Rabs (pz x)) with 0 by ring; rewrite Rabs_R0; unfold cone_tol; lra).
    destruct (Rlt_dec 0 (pz x)); destruct pseudo; [apply eta_fwd|apply rap_cone_fwd|apply eta_bwd|apply rap_cone_bwd]; try assumption; lra. }
  rewrite (C132_any_pair _ _ _ _ _ _ _ _ _ _ _ 0 HS H Hp Hq (K p P0 PZ PE) (K q Q0 QZ QE)) by (right; tauto).
  f_equal. destruct (Rlt_dec 0 (pz p)), (Rlt_dec 0 (pz q)), (Rlt_dec 0 (pz p * pz q)) as [S|S]; cbn [dist_is]; try reflexivity; rewrite ?Rabs_R0; try reflexivity; exfalso.
  - apply S, Rmult_lt_0_compat; assumption.
  - assert (pz q < 0) by lra. assert (pz p * pz q < 0) by (apply Rmult_pos_neg || (rewrite <- (Rmult_0_r (pz p)); apply Rmult_lt_compat_l; lra)). lra.
  - assert (pz p < 0) by lra. assert (pz p * pz q < 0) by (rewrite Rmult_comm, <- (Rmult_0_r (pz q)); apply Rmult_lt_compat_l; lra). lra.
  - apply S. replace (pz p * pz q) with ((- pz p) * (- pz q)) by ring. apply Rmult_lt_0_compat; lra.
Qed.
Example C132_demo : exists M, delta_R_call true true [Mom 0 0 1 1; Mom 0 0 (-3) 3] [Mom 0 0 1 1; Mom 0 0 (-3) 3] M /\ at2 M 0 1 = Some PInf.
Proof.
  destruct (call_exists true true [Mom 0 0 1 1; Mom 0 0 (-3) 3] [Mom 0 0 1 1; Mom 0 0 (-3) 3]) as (M & HM). exists M. split; [exact HM|].
  rewrite (C132_beam true true _ _ M 0 1 (Mom 0 0 1 1) (Mom 0 0 (-3) 3) (fun _ => eq_refl) HM eq_refl eq_refl); cbn [pz en pt_sq px py]; try lra.
  - destruct (Rlt_dec 0 (1 * -3)); [lra|reflexivity].
  - unfold pt_sq; cbn [px py]; lra.
  - unfold pt_sq; cbn [px py]; lra.
  - rewrite Rabs_pos_eq; lra.
  - rewrite Rabs_left; lra.
Qed.

Print Assumptions C131_rapidity.
Print Assumptions C131_rapidity_unique.
Print Assumptions C131_pseudorapidity.
Print Assumptions C131_pseudorapidity_unique.
Print Assumptions C132_any_pair.
Print Assumptions C132_total.
Print Assumptions C132_beam.
