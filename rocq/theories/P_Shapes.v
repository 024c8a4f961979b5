(** C70 - C75. *)
From Verif Require Import Prelude Keys SpecReal SpecShapes RealBase Shapes ShapesProofs.
From Coq Require Import Permutation.
Open Scope R_scope.

(** ** C70 c_parameter *)
Theorem C70_c_parameter : forall l, l <> [] -> (forall p, In p l -> p_sq p <> 0) ->
  c_parameter l = Ok (c_textbook l) /\ 0 <= c_textbook l <= 1 /\
  (c_textbook l = 0 <-> forall p q, In p l -> In q l -> parallel p q) /\
  (forall l', Permutation l l' -> c_parameter l' = Ok (c_textbook l)).
Proof.
  intros l Hn H. split; [apply c_value; assumption|]. split; [apply c_bounds; assumption|]. split; [apply c_zero; assumption|].
  intros l' P. rewrite c_value.
  - rewrite (c_perm _ _ P). reflexivity.
  - intros ->. apply Permutation_sym, Permutation_nil in P. contradiction.
  - intros p Hp. apply H. apply (Permutation_in _ (Permutation_sym P)), Hp.
Qed.
(** A particle at rest anywhere, or no particle at all, raises instead. *)
Lemma c_inner_err p n l : (exists q, In q l /\ p_sq q = 0) -> forall out, foldM (c_inner p n) l out = Err ZeroDivisionError.
Proof.
  induction l as [|q l IH]; intros (q0 & Hq & E) out; [destruct Hq|]. cbn [foldM]. unfold c_inner at 1.
  assert (Z : forall u, p_sq u = 0 -> px u = 0 /\ py u = 0 /\ pz u = 0).
  { intros u Eu. unfold p_sq in Eu. pose proof (Rle_0_sqr (px u)). pose proof (Rle_0_sqr (py u)). pose proof (Rle_0_sqr (pz u)).
    unfold Rsqr in *. repeat split; apply Rsqr_0_uniq; unfold Rsqr; lra. }
  destruct (Req_dec (p_sq q) 0) as [Eq|Nq].
  - destruct (Z q Eq) as (-> & -> & ->). rewrite three_norm_zero. reflexivity.
  - rewrite three_norm_mom by exact Nq. cbn [bind]. unfold fdiv. destruct (Req_EM_T _ 0); [reflexivity|]. cbn [bind].
    apply IH. exists q0. split; [|exact E]. destruct Hq as [->|]; [contradiction|assumption].
Qed.
Theorem C70_errors : c_parameter [] = Err ZeroDivisionError /\
  forall l p, In p l -> p_sq p = 0 -> c_parameter l = Err ZeroDivisionError.
Proof.
  split.
  - unfold c_parameter. cbn [c_outer bind fst snd]. unfold fdiv. destruct (Req_EM_T (0 * 0) 0); [reflexivity|exfalso; lra].
  - intros l p Hp E. destruct l as [|q l]; [destruct Hp|]. unfold c_parameter. cbn [c_outer].
    destruct (Req_dec (p_sq q) 0) as [Eq|Nq].
    + assert (px q = 0 /\ py q = 0 /\ pz q = 0) as (-> & -> & ->).
      { unfold p_sq in Eq. pose proof (Rle_0_sqr (px q)). pose proof (Rle_0_sqr (py q)). pose proof (Rle_0_sqr (pz q)).
        unfold Rsqr in *. repeat split; apply Rsqr_0_uniq; unfold Rsqr; lra. }
      rewrite three_norm_zero. reflexivity.
    + rewrite three_norm_mom by exact Nq. cbn [bind]. rewrite c_inner_err by (exists p; split; assumption). reflexivity.
Qed.
(** The bound is reached: three orthogonal back-to-back pairs have C = 1. *)
Definition isotropic : list mom := [Mom 1 0 0 1; Mom 0 1 0 1; Mom 0 0 1 1].
Lemma iso_nonzero : forall p, In p isotropic -> p_sq p <> 0.
Proof. unfold isotropic, p_sq. cbn [In]. intros p [<-|[<-|[<-|[]]]]; cbn [px py pz]; lra. Qed.
Lemma norm3_one p : p_sq p = 1 -> norm3 p = 1.
Proof. intros E. unfold norm3. rewrite E. apply sqrt_1. Qed.
Example C70_demo : c_parameter isotropic = Ok 1.
Proof.
  rewrite (proj1 (C70_c_parameter isotropic ltac:(discriminate) iso_nonzero)). f_equal.
  unfold c_textbook, total_norm, isotropic, sin_sq. cbn [map rsum].
  rewrite !norm3_one by (unfold p_sq; cbn [px py pz]; lra). unfold dot3. cbn [px py pz]. field.
Qed.

(** ** C71 thrust *)
Theorem C71_thrust_objective : forall l a i, l <> [] -> (forall p, In p l -> p_sq p <> 0) ->
  let n := unit_axis a i in
  exists gphi gtheta, thrust_with_grad a i l = Ok (- thrust_along l n, (gphi, gtheta)) /\ 0 <= thrust_along l n <= 1 /\
  ((forall p, In p l -> along p n <> 0) ->
     derivable_pt_lim (fun t => - thrust_along l (unit_axis t i)) a gphi /\
     derivable_pt_lim (fun t => - thrust_along l (unit_axis a t)) i gtheta).
Proof.
  intros l a i Hn H n. pose proof (total_norm_pos l Hn H) as HT. eexists. eexists. split; [apply thrust_value; assumption|].
  split; [apply thrust_bounds; try assumption; apply unit_axis_norm|].
  intros HA. split.
  - apply (derivable_pt_lim_opp (fun t => thrust_along l (unit_axis t i))), thrust_deriv_phi; [lra|exact HA].
  - apply (derivable_pt_lim_opp (fun t => thrust_along l (unit_axis a t))), thrust_deriv_theta; [lra|exact HA].
Qed.
(** The value and axis [thrust] returns belong together, whatever point the optimiser stops at. *)
Theorem C71_thrust_result : forall l a i, l <> [] -> (forall p, In p l -> p_sq p <> 0) ->
  exists n, thrust (a, i) l = Ok (thrust_along l n, n) /\ vnorm_sq n = 1 /\ 0 <= thrust_along l n <= 1.
Proof.
  intros l a i Hn H. exists (unit_axis a i). unfold thrust. cbn [fst snd]. rewrite thrust_value by assumption. cbn [bind fst snd].
  rewrite Ropp_involutive. split; [reflexivity|]. split; [apply unit_axis_norm|]. apply thrust_bounds; try assumption. apply unit_axis_norm.
Qed.
(** Hypotheses met: a three-particle event, none orthogonal to the axis (0, 0, 1). *)
Definition shape_event : list mom := [Mom 1 2 2 3; Mom (-2) 1 2 3; Mom 2 (-2) (-1) 3].
Lemma shape_nonzero : forall p, In p shape_event -> p_sq p <> 0.
Proof. unfold shape_event, p_sq. cbn [In]. intros p [<-|[<-|[<-|[]]]]; cbn [px py pz]; lra. Qed.
Example C71_demo : (forall p, In p shape_event -> along p (unit_axis 0 0) <> 0) /\ thrust_along shape_event (unit_axis 0 0) = 5 / 9.
Proof.
  unfold along, unit_axis. rewrite sin_0, cos_0. split.
  - unfold shape_event. cbn [In]. intros p [<-|[<-|[<-|[]]]]; cbn [px py pz vx vy vz]; lra.
  - unfold thrust_along, total_norm, shape_event, along. cbn [map rsum px py pz vx vy vz].
    assert (N : forall p, p_sq p = 9 -> norm3 p = 3).
    { intros p E. unfold norm3. rewrite E. replace 9 with (3 * 3) by lra. apply sqrt_square. lra. }
    rewrite !N by (unfold p_sq; cbn [px py pz]; lra).
    replace (Rabs _) with 2 at 1 by (rewrite Rabs_pos_eq; lra).
    replace (Rabs (-2 * _ + _ + _)) with 2 by (rewrite Rabs_pos_eq; lra).
    replace (Rabs (2 * _ + _ + _)) with 1 by (rewrite Rabs_left; lra). field.
Qed.

(** ** C72 the search box *)
Lemma box_upper n : vnorm_sq n = 1 -> 0 <= vz n -> exists a i, in_box a i /\ unit_axis a i = n.
Proof.
  destruct n as [x y z]. unfold vnorm_sq, in_box, half_pi, unit_axis. cbn [vx vy vz]. intros H Hz.
  pose proof PI_RGT_0 as HP.
  set (r2 := x * x + y * y). assert (R2 : 0 <= r2) by apply sumsq_pos.
  set (r := sqrt r2). assert (Er : r * r = r2) by (apply sqr_sqrt; exact R2). assert (Hr : 0 <= r) by apply sqrt_pos.
  assert (Hr1 : r <= 1). { apply Rsqr_incr_0_var; [|lra]. unfold Rsqr. rewrite Er. unfold r2. pose proof (Rle_0_sqr z) as Z. unfold Rsqr in Z. lra. }
  destruct (Req_dec r 0) as [E0|N0].
  - assert (x = 0 /\ y = 0) as (-> & ->). { apply sumsq_zero. fold r2. rewrite <- Er, E0. ring. }
    assert (z = 1) by nra. subst z. exists 0, 0. split; [lra|]. rewrite sin_0, cos_0. f_equal; ring.
  - assert (Hr0 : 0 < r) by lra.
    assert (Bi : - (PI / 2) <= asin r <= PI / 2) by apply asin_bound.
    assert (Ci : cos (asin r) = z).
    { rewrite cos_asin by lra. unfold Rsqr. rewrite Er. replace (1 - r2) with (z * z) by (unfold r2; lra).
      apply sqrt_square. exact Hz. }
    assert (By : -1 <= y / r <= 1).
    { assert (Q : Rsqr y <= Rsqr r) by (unfold Rsqr; rewrite Er; unfold r2; pose proof (Rle_0_sqr x) as X; unfold Rsqr in X; lra).
      assert (-r <= y <= r) by (split; [apply Rsqr_neg_pos_le_0 | apply Rsqr_incr_0_var]; assumption). split; apply Rmult_le_reg_r with r; try exact Hr0; unfold Rdiv; rewrite Rmult_assoc, Rinv_l by lra; lra. }
    assert (Ca : cos (asin (y / r)) = Rabs x / r).
    { rewrite cos_asin by exact By. unfold Rsqr.
      replace (1 - y / r * (y / r)) with (Rsqr (x / r)).
      - rewrite sqrt_Rsqr_abs. unfold Rdiv. rewrite Rabs_mult. f_equal. rewrite Rabs_inv, Rabs_pos_eq by lra. reflexivity.
      - unfold Rsqr. apply (Rmult_eq_reg_r (r * r)); [|nra]. field_simplify; try lra.
        replace (r ^ 2) with (x * x + y * y) by (fold r2; rewrite <- Er; ring). ring. }
    pose proof (asin_bound (y / r)) as Ba.
    destruct (Rle_dec 0 x) as [Px|Nx].
    + exists (asin (y / r)), (asin r). split; [lra|]. rewrite Ca, Ci, !sin_asin, Rabs_pos_eq by lra.
      f_equal; field; lra.
    + exists (- asin (y / r)), (- asin r). split; [lra|]. rewrite !sin_neg, !cos_neg, Ca, Ci, !sin_asin, Rabs_left by lra.
      f_equal; field; lra.
Qed.
Theorem C72_box_covers : forall n, vnorm_sq n = 1 ->
  exists a i, in_box a i /\ (unit_axis a i = n \/ unit_axis a i = vopp n).
Proof.
  intros n H. destruct (Rle_dec 0 (vz n)) as [Hz|Hz].
  - destruct (box_upper n H Hz) as (a & i & B & E). exists a, i. auto.
  - destruct (box_upper (vopp n)) as (a & i & B & E).
    + unfold vnorm_sq, vopp in *. cbn [vx vy vz]. lra.
    + unfold vopp. cbn [vz]. lra.
    + exists a, i. auto.
Qed.
Lemma along_opp p n : along p (vopp n) = - along p n.
Proof. unfold along, vopp. cbn [vx vy vz]. ring. Qed.
Lemma cross_opp p n : cross_sq p (vopp n) = cross_sq p n.
Proof. unfold cross_sq, vopp. cbn [vx vy vz]. ring. Qed.
(** ... and, poles and edges apart, only once. *)
Theorem C72_box_once : forall a i a' i', in_box a i -> in_box a' i' ->
  Rabs a <> PI / 2 -> Rabs i <> PI / 2 -> Rabs a' <> PI / 2 -> Rabs i' <> PI / 2 -> i <> 0 ->
  unit_axis a' i' = unit_axis a i \/ unit_axis a' i' = vopp (unit_axis a i) -> a' = a /\ i' = i.
Proof.
  intros a i a' i' (B1 & B2) (B3 & B4) N1 N2 N3 N4 I0 H. unfold half_pi in *. pose proof PI_RGT_0 as HPI.
  assert (ST : forall x, - (/ 2 * PI) <= x <= / 2 * PI -> Rabs x <> PI / 2 -> - (PI / 2) < x < PI / 2).
  { intros x Hx N. destruct (Req_dec x (PI / 2)) as [->|]; [exfalso; apply N, Rabs_pos_eq; lra|]. destruct (Req_dec x (- (PI / 2))) as [->|]; [exfalso; apply N; rewrite Rabs_left; lra|]. lra. }
  apply ST in B1; [|exact N1]. apply ST in B2; [|exact N2]. apply ST in B3; [|exact N3]. apply ST in B4; [|exact N4]. clear ST N1 N2 N3 N4.
  assert (CA : 0 < cos a) by (apply cos_gt_0; lra). assert (CI : 0 < cos i) by (apply cos_gt_0; lra). assert (CA' : 0 < cos a') by (apply cos_gt_0; lra). assert (CI' : 0 < cos i') by (apply cos_gt_0; lra).
  destruct H as [H|H]; unfold unit_axis, vopp in H; cbn [vx vy vz] in H; injection H as Hx Hy Hz; [|lra].
  assert (SGN : forall x, - (PI / 2) < x < PI / 2 -> (0 < x -> 0 < sin x) /\ (x < 0 -> sin x < 0)).
  { intros x HX. split; intros L; [apply sin_gt_0; lra|]. apply Ropp_lt_cancel. rewrite Ropp_0, <- sin_neg. apply sin_gt_0; lra. }
  destruct (SGN i B2) as (S1 & S2). destruct (SGN i' B4) as (S3 & S4).
  assert (EI : i' = i).
  { apply angle_unique; [lra|lra|exact Hz|].
    pose proof (sin2_cos2 i) as Q1. pose proof (sin2_cos2 i') as Q2. rewrite Hz in Q2. unfold Rsqr in *.
    assert (QQ : (sin i' - sin i) * (sin i' + sin i) = 0) by lra. apply Rmult_integral in QQ as [QQ|QQ]; [lra|]. exfalso.
    assert (EX : sin i' = - sin i) by lra. rewrite EX in Hx.
    destruct (Rtotal_order i 0) as [L|[L|L]]; [|contradiction|].
    - specialize (S2 L). assert (0 < cos a' * - sin i) by (apply Rmult_lt_0_compat; lra). assert (0 < cos a * - sin i) by (apply Rmult_lt_0_compat; lra). lra.
    - specialize (S1 L). assert (0 < cos a' * sin i) by (apply Rmult_lt_0_compat; lra). assert (0 < cos a * sin i) by (apply Rmult_lt_0_compat; lra). lra. }
  split; [|exact EI]. subst i'. assert (NS : sin i <> 0) by (destruct (Rtotal_order i 0) as [L|[L|L]]; [specialize (S2 L); lra|contradiction|specialize (S1 L); lra]).
  apply angle_unique; [lra|lra| |]; apply (Rmult_eq_reg_l (sin i)); try exact NS; lra.
Qed.
Example C72_box_once_demo : in_box 1 1 /\ Rabs 1 <> PI / 2.
Proof. assert (2 < PI) by (pose proof PI2_1; lra). unfold in_box, half_pi. rewrite Rabs_R1. split; lra. Qed.

Theorem C72_axis_sign : forall l n,
  thrust_along l (vopp n) = thrust_along l n /\ spherocity_along l (vopp n) = spherocity_along l n.
Proof.
  intros l n. unfold thrust_along, spherocity_along. split.
  - f_equal. apply rsum_map_ext. intros p _. rewrite along_opp, Rabs_Ropp. reflexivity.
  - cbv zeta. rewrite (rsum_map_ext (fun p => sqrt (cross_sq p (vopp n))) (fun p => sqrt (cross_sq p n))); [reflexivity|].
    intros p _. rewrite cross_opp. reflexivity.
Qed.
(** So an optimiser that does find the best point of the box finds the best axis of all. *)
Theorem C72_global_optimum : forall l a i, l <> [] -> (forall p, In p l -> p_sq p <> 0) ->
  ((forall a' i', in_box a' i' -> thrust_along l (unit_axis a' i') <= thrust_along l (unit_axis a i)) ->
     exists T n, thrust (a, i) l = Ok (T, n) /\ forall m, vnorm_sq m = 1 -> thrust_along l m <= T) /\
  ((forall p, In p l -> cross_sq p (unit_axis a i) <> 0) ->
   (forall a' i', in_box a' i' -> spherocity_along l (unit_axis a i) <= spherocity_along l (unit_axis a' i')) ->
     exists T n, spherocity (a, i) l = Ok (T, n) /\ forall m, vnorm_sq m = 1 -> T <= spherocity_along l m).
Proof.
  intros l a i Hn H. pose proof (total_norm_pos l Hn H) as HT. split.
  - intros B. exists (thrust_along l (unit_axis a i)), (unit_axis a i). split.
    + unfold thrust. cbn [fst snd]. rewrite thrust_value by assumption. cbn [bind fst snd]. rewrite Ropp_involutive. reflexivity.
    + intros m Hm. destruct (C72_box_covers m Hm) as (a' & i' & Hb & [E|E]); specialize (B a' i' Hb); rewrite E in B; [exact B|].
      rewrite (proj1 (C72_axis_sign l m)) in B. exact B.
  - intros HC B. exists (spherocity_along l (unit_axis a i)), (unit_axis a i). split.
    + unfold spherocity. cbn [fst snd]. rewrite sph_value by assumption. cbn [bind fst snd]. rewrite sph_alt by lra. reflexivity.
    + intros m Hm. destruct (C72_box_covers m Hm) as (a' & i' & Hb & [E|E]); specialize (B a' i' Hb); rewrite E in B; [exact B|].
      rewrite (proj2 (C72_axis_sign l m)) in B. exact B.
Qed.
Example C72_demo : vnorm_sq (Vec (-3/5) 0 (-4/5)) = 1.
Proof. unfold vnorm_sq. cbn [vx vy vz]. lra. Qed.

(** ** C73, C74 spherocity *)
Theorem C73_spherocity_objective : forall l a i, l <> [] -> (forall p, In p l -> cross_sq p (unit_axis a i) <> 0) ->
  let n := unit_axis a i in
  exists gphi gtheta, spherocity_with_grad a i l = Ok (spherocity_along l n, (gphi, gtheta)) /\
    0 <= spherocity_along l n <= (4 / PI) * (4 / PI) /\
    derivable_pt_lim (fun t => spherocity_along l (unit_axis t i)) a gphi.
Proof.
  intros l a i Hn H n. assert (H0 : forall p, In p l -> p_sq p <> 0) by (intros p Hp; apply (cross_p a i), H, Hp).
  pose proof (total_norm_pos l Hn H0) as HT.
  eexists. eexists. split; [rewrite sph_value, sph_alt by (assumption || lra); reflexivity|].
  split; [apply sph_bounds; try assumption; apply unit_axis_norm|].
  unfold spherocity_along. cbv zeta. eapply deriv_eq;
    [|apply (sph_deriv (fun p t => sqrt (cross_sq p (unit_axis t i)))
        (fun p => - (along p (unit_axis a i) * d_phi p a i) / sqrt (cross_sq p (unit_axis a i))));
      intros p Hp; apply cross_deriv_phi, H, Hp].
  rewrite (rsum_map_ext (sph_phi a i) (fun p => 2 * (- (along p (unit_axis a i) * d_phi p a i) / sqrt (cross_sq p (unit_axis a i)))))
    by (intros p Hp; apply sph_phi_eq, H, Hp).
  rewrite rsum_map_scal. pose proof PI_RGT_0. field. split; lra.
Qed.
(** An axis along a particle, or a particle at rest, raises. *)
Lemma cross_zero a i p : p_sq p <> 0 -> cross_sq p (unit_axis a i) = 0 ->
  forall s, spherocity_step a i s p = Err ZeroDivisionError.
Proof.
  intros Hp E s. unfold spherocity_step. rewrite three_norm_mom by exact Hp. cbn [bind].
  unfold cross_sq, unit_axis in E. cbn [vx vy vz] in E.
  set (u := py p * cos i - pz p * (sin i * sin a)) in *. set (v := pz p * (sin i * cos a) - px p * cos i) in *.
  set (w := px p * (sin i * sin a) - py p * (sin i * cos a)) in *.
  assert (u = 0 /\ v = 0 /\ w = 0) as (-> & -> & ->).
  { pose proof (Rle_0_sqr u). pose proof (Rle_0_sqr v). pose proof (Rle_0_sqr w). unfold Rsqr in *.
    repeat split; apply Rsqr_0_uniq; unfold Rsqr; lra. }
  rewrite three_norm_zero. reflexivity.
Qed.
Theorem C73_parallel_axis_raises : forall l a i p, In p l -> cross_sq p (unit_axis a i) = 0 ->
  spherocity_with_grad a i l = Err ZeroDivisionError.
Proof.
  intros l a i p Hp E. unfold spherocity_with_grad.
  assert (G : forall l s, (exists q, In q l /\ cross_sq q (unit_axis a i) = 0) -> foldM (spherocity_step a i) l s = Err ZeroDivisionError).
  { clear. induction l as [|q l IH]; intros s (p & Hp & E); [destruct Hp|]. cbn [foldM].
    destruct (Req_dec (p_sq q) 0) as [Eq|Nq].
    - unfold spherocity_step. assert (px q = 0 /\ py q = 0 /\ pz q = 0) as (-> & -> & ->).
      { unfold p_sq in Eq. pose proof (Rle_0_sqr (px q)). pose proof (Rle_0_sqr (py q)). pose proof (Rle_0_sqr (pz q)).
        unfold Rsqr in *. repeat split; apply Rsqr_0_uniq; unfold Rsqr; lra. }
      rewrite three_norm_zero. reflexivity.
    - destruct (Req_dec (cross_sq q (unit_axis a i)) 0) as [Ec|Nc]; [rewrite cross_zero by assumption; reflexivity|].
      destruct (spherocity_step a i s q) as [s'|e] eqn:Es.
      + cbn [bind]. apply IH. exists p. split; [|exact E]. destruct Hp as [->|]; [contradiction|assumption].
      + revert Es. unfold spherocity_step. rewrite three_norm_mom by exact Nq. cbn [bind].
        rewrite three_norm_cross by exact Nc. cbn [bind].
        rewrite fdiv_ok; [discriminate|]. apply Rgt_not_eq, sqrt_lt_R0. pose proof (cross_nonneg q (unit_axis a i)). lra. }
  rewrite G by (exists p; split; assumption). reflexivity.
Qed.
Example C73_demo : (forall p, In p shape_event -> cross_sq p (unit_axis 0 0) <> 0).
Proof.
  unfold cross_sq, unit_axis. rewrite sin_0, cos_0. unfold shape_event. cbn [In]. intros p [<-|[<-|[<-|[]]]]; cbn [px py pz vx vy vz]; lra.
Qed.

(** C74: the inclination component is off by exactly the terms below. *)
Theorem C74_inclination_gradient_partial : forall l a i, l <> [] -> (forall p, In p l -> cross_sq p (unit_axis a i) <> 0) ->
  let n := unit_axis a i in
  let S := rsum (map (fun p => sqrt (cross_sq p n)) l) in
  let f := 4 / (PI * total_norm l) in
  exists gphi gtheta true_gtheta, spherocity_with_grad a i l = Ok (spherocity_along l n, (gphi, gtheta)) /\
    derivable_pt_lim (fun t => spherocity_along l (unit_axis a t)) i true_gtheta /\
    gtheta = true_gtheta - 2 * f * f * S * cos (2 * i) * cos a *
      rsum (map (fun p => px p * (py p - pz p) / sqrt (cross_sq p n)) l).
Proof.
  intros l a i Hn H n S f. assert (H0 : forall p, In p l -> p_sq p <> 0) by (intros p Hp; apply (cross_p a i), H, Hp).
  pose proof (total_norm_pos l Hn H0) as HT.
  eexists. eexists. eexists. split; [rewrite sph_value, sph_alt by (assumption || lra); reflexivity|].
  split.
  - unfold spherocity_along. cbv zeta. apply (sph_deriv (fun p t => sqrt (cross_sq p (unit_axis a t)))
        (fun p => - (along p (unit_axis a i) * d_theta p a i) / sqrt (cross_sq p (unit_axis a i)))).
    intros p Hp. apply cross_deriv_theta, H, Hp.
  - cbv beta. rewrite (rsum_map_ext (sph_theta a i) (fun p => 2 * (- (along p (unit_axis a i) * d_theta p a i) / sqrt (cross_sq p (unit_axis a i))) + theta_defect a i p))
      by (intros p Hp; apply sph_theta_eq, H, Hp).
    rewrite rsum_map_plus, rsum_map_scal.
    rewrite (rsum_map_ext (theta_defect a i) (fun p => (-2 * cos (2 * i) * cos a) * (px p * (py p - pz p) / sqrt (cross_sq p n)))).
    2:{ intros p Hp. unfold theta_defect. fold n. rewrite cos_2a_cos. unfold Rdiv. ring. }
    rewrite rsum_map_scal. fold n. fold S. unfold f. pose proof PI_RGT_0. field. split; lra.
Qed.
(** One particle (1, 1, 0) seen from the z axis: the code returns a non-zero slope at a stationary point. *)
Lemma deriv_unique f x a b : derivable_pt_lim f x a -> derivable_pt_lim f x b -> a = b.
Proof. apply uniqueness_limite. Qed.
Theorem C74_inclination_gradient_refuted : exists l a i v gphi gtheta true_gtheta,
  in_box a i /\ spherocity_with_grad a i l = Ok (v, (gphi, gtheta)) /\
  derivable_pt_lim (fun t => spherocity_along l (unit_axis a t)) i true_gtheta /\ gtheta <> true_gtheta.
Proof.
  set (l := [Mom 1 1 0 2]).
  assert (HC : forall p, In p l -> cross_sq p (unit_axis 0 0) <> 0).
  { unfold cross_sq, unit_axis. rewrite sin_0, cos_0. unfold l. cbn [In]. intros p [<-|[]]; cbn [px py pz vx vy vz]; lra. }
  destruct (C74_inclination_gradient_partial l 0 0 ltac:(discriminate) HC) as (gp & gt & tg & E & D & Q).
  exists l, 0, 0, (spherocity_along l (unit_axis 0 0)), gp, gt, tg. split; [|split; [exact E|split; [exact D|]]].
  - unfold in_box, half_pi. pose proof PI_RGT_0. lra.
  - rewrite Q. intros F.
    assert (C2 : sqrt (cross_sq (Mom 1 1 0 2) (unit_axis 0 0)) = sqrt 2).
    { f_equal. unfold cross_sq, unit_axis. rewrite sin_0, cos_0. cbn [px py pz vx vy vz]. lra. }
    assert (N2 : total_norm l = sqrt 2).
    { unfold total_norm, l, norm3, p_sq. cbn [map rsum px py pz]. rewrite Rplus_0_r. f_equal. lra. }
    revert F. rewrite N2. unfold l. cbn [map rsum]. rewrite C2. cbn [px py pz].
    replace (2 * 0) with 0 by ring. rewrite cos_0.
    assert (0 < sqrt 2) by (apply sqrt_lt_R0; lra). pose proof PI_RGT_0 as HP.
    intros F. assert (G : 2 * (4 / (PI * sqrt 2)) * (4 / (PI * sqrt 2)) * (sqrt 2 + 0) * 1 * 1 * (1 * (1 - 0) / sqrt 2 + 0) = 0) by lra.
    revert G. apply Rgt_not_eq. repeat apply Rmult_lt_0_compat; try lra.
    all: try (apply Rinv_0_lt_compat, Rmult_lt_0_compat; assumption).
    assert (0 < 1 / sqrt 2) by (apply Rdiv_lt_0_compat; lra). lra.
Qed.

(** ** C75 jaccard_distance *)
Definition weights_for (u : list bool) (w : option (list R)) : list R :=
  match w with None => map (fun _ => 1) u | Some w => w end.

Lemma jaccard_fold u : forall v w s, fold_left jaccard_step (combine (combine u v) w) s =
  (fst s + weight_of w (union u v), snd s + weight_of w (sym_diff u v)).
Proof.
  unfold weight_of, union, sym_diff. induction u as [|a u IH]; intros v w s.
  - destruct s. cbn. f_equal; lra.
  - destruct v as [|b v]; [destruct s; cbn; f_equal; lra|].
    destruct w as [|x w]; [destruct s; destruct (map2 orb (a :: u) (b :: v)), (map2 xorb (a :: u) (b :: v)); cbn; f_equal; lra|].
    cbn [combine fold_left map2 rsum]. rewrite IH. destruct s as [s1 s2]. destruct a, b; cbn [jaccard_step orb xorb andb fst snd]; f_equal; lra.
Qed.
Lemma repeat_map {A B} (x : B) (l : list A) : repeat x (length l) = map (fun _ => x) l.
Proof. induction l; cbn; congruence. Qed.
Lemma jaccard_value u v w : let W := weights_for u w in
  jaccard_distance u v w = if Req_EM_T (weight_of W (union u v)) 0 then 0
    else weight_of W (sym_diff u v) / weight_of W (union u v).
Proof.
  unfold jaccard_distance, weights_for. destruct w as [w|]; cbv zeta; rewrite jaccard_fold; cbn [fst snd]; rewrite !Rplus_0_l; [reflexivity|].
  rewrite repeat_map. reflexivity.
Qed.

Lemma weight_nonneg w m : Forall (Rle 0) w -> 0 <= weight_of w m.
Proof.
  unfold weight_of. revert w; induction m as [|b m IH]; intros w H; [cbn; lra|]. destruct w as [|x w]; [cbn; lra|].
  inversion H; subst. cbn [map2 rsum]. specialize (IH w H3). destruct b; lra.
Qed.
(** 2 mu(A u B) = mu A + mu B + mu (A xor B), and mu(. xor .) is a pseudometric. *)
Lemma weight_union w u v : length v = length u ->
  2 * weight_of w (union u v) = weight_of w u + weight_of w v + weight_of w (sym_diff u v).
Proof.
  unfold weight_of, union, sym_diff. revert v w; induction u as [|a u IH]; intros [|b v] w HL; try discriminate; [cbn; lra|].
  destruct w as [|x w]; [cbn; lra|]. injection HL as HL. specialize (IH v w HL). cbn [map2 rsum] in *. destruct a, b; cbn [orb xorb]; lra.
Qed.
Lemma weight_tri w u v t : length v = length u -> length t = length u -> Forall (Rle 0) w ->
  weight_of w (sym_diff u t) <= weight_of w (sym_diff u v) + weight_of w (sym_diff v t) /\
  weight_of w v <= weight_of w u + weight_of w (sym_diff u v) /\
  weight_of w v <= weight_of w t + weight_of w (sym_diff v t).
Proof.
  unfold weight_of, sym_diff. revert v t w; induction u as [|a u IH]; intros [|b v] [|c t] w H1 H2 H; try discriminate; [cbn; lra|].
  destruct w as [|x w]; [cbn; lra|]. injection H1 as H1; injection H2 as H2. apply Forall_cons_iff in H; destruct H as (Hx0 & H6).
  specialize (IH v t w H1 H2 H6). cbn [map2 rsum] in *. destruct a, b, c; cbn [xorb]; lra.
Qed.
Lemma sym_diff_comm u v : sym_diff u v = sym_diff v u.
Proof. unfold sym_diff. revert v; induction u as [|a u IH]; intros [|b v]; cbn; try reflexivity. rewrite IH, xorb_comm. reflexivity. Qed.
Lemma union_comm u v : union u v = union v u.
Proof. unfold union. revert v; induction u as [|a u IH]; intros [|b v]; cbn; try reflexivity. rewrite IH, orb_comm. reflexivity. Qed.
Lemma diff_le_union w u v : Forall (Rle 0) w -> weight_of w (sym_diff u v) <= weight_of w (union u v).
Proof.
  unfold weight_of, sym_diff, union. revert v w; induction u as [|a u IH]; intros [|b v] [|x w] H; try (cbn; lra).
  inversion H; subst. specialize (IH v w H3). cbn [map2 rsum] in *. destruct a, b; cbn [xorb orb]; lra.
Qed.
Lemma sym_diff_self u : forall w, weight_of w (sym_diff u u) = 0.
Proof.
  unfold weight_of, sym_diff. induction u as [|a u IH]; intros [|x w]; try (cbn; lra). cbn [map2 rsum]. rewrite IH, xorb_nilpotent. lra.
Qed.
Lemma Rdiv_le_0_compat a b : 0 <= a -> 0 < b -> 0 <= a / b.
Proof. intros. apply Rmult_le_pos; [assumption|]. left. apply Rinv_0_lt_compat. assumption. Qed.
Definition jd (d U : R) : R := if Req_EM_T U 0 then 0 else d / U.
Lemma div_le a b c d : 0 < b -> 0 < d -> a * d <= c * b -> a / b <= c / d.
Proof.
  intros Hb Hd H. apply Rmult_le_reg_r with (b * d); [apply Rmult_lt_0_compat; assumption|].
  replace (a / b * (b * d)) with (a * d) by (field; lra). replace (c / d * (b * d)) with (c * b) by (field; lra). exact H.
Qed.
Lemma steinhaus a b c dab dbc dac Uab Ubc Uac :
  0 <= a -> 0 <= b -> 0 <= c -> 0 <= dab -> 0 <= dbc -> 0 <= dac ->
  2 * Uab = a + b + dab -> 2 * Ubc = b + c + dbc -> 2 * Uac = a + c + dac ->
  dac <= dab + dbc -> b <= a + dab -> b <= c + dbc -> dab <= Uab -> dbc <= Ubc -> dac <= Uac ->
  jd dac Uac <= jd dab Uab + jd dbc Ubc.
Proof.
  intros. assert (P1 : 0 <= jd dab Uab). { unfold jd. destruct (Req_EM_T Uab 0); [lra|]. apply Rdiv_le_0_compat; lra. }
  assert (P2 : 0 <= jd dbc Ubc). { unfold jd. destruct (Req_EM_T Ubc 0); [lra|]. apply Rdiv_le_0_compat; lra. }
  unfold jd at 1. destruct (Req_EM_T Uac 0) as [|N]; [lra|].
  set (V := (a + c + dab + dbc) / 2). assert (0 < V) by (unfold V; lra).
  apply Rle_trans with ((dab + dbc) / V).
  { apply div_le; try lra. unfold V. assert (0 <= (dab + dbc - dac) * (Uac - dac)) by (apply Rmult_le_pos; lra). nra. }
  unfold Rdiv at 1. rewrite Rmult_plus_distr_r. apply Rplus_le_compat.
  - unfold jd. destruct (Req_EM_T Uab 0) as [E|]; [replace dab with 0 by lra; lra|]. apply div_le; try lra. apply Rmult_le_compat_l; [lra|]. unfold V. lra.
  - unfold jd. destruct (Req_EM_T Ubc 0) as [E|]; [replace dbc with 0 by lra; lra|]. apply div_le; try lra. apply Rmult_le_compat_l; [lra|]. unfold V. lra.
Qed.

Theorem C75_jaccard : forall u v w, let W := weights_for u w in
  length v = length u -> length W = length u -> Forall (Rle 0) W ->
  let d := jaccard_distance u v w in
  d = (if Req_EM_T (weight_of W (union u v)) 0 then 0 else weight_of W (sym_diff u v) / weight_of W (union u v)) /\
  0 <= d <= 1 /\ jaccard_distance v u w = d /\ jaccard_distance u u w = 0 /\
  (forall t, length t = length u -> jaccard_distance u t w <= d + jaccard_distance v t w).
Proof.
  intros u v w W Hv HW H d. split; [apply jaccard_value|].
  assert (EW : forall t, length t = length u -> weights_for t w = W).
  { intros t Ht. unfold W, weights_for. destruct w; [reflexivity|]. rewrite <- !repeat_map, Ht. reflexivity. }
  assert (B : 0 <= d <= 1).
  { unfold d. rewrite jaccard_value. fold W. destruct (Req_EM_T _ 0); [lra|].
    pose proof (weight_nonneg W (union u v) H). pose proof (weight_nonneg W (sym_diff u v) H). pose proof (diff_le_union W u v H).
    split; [apply Rdiv_le_0_compat; lra|]. replace 1 with (1 / 1) by field. apply div_le; lra. }
  split; [exact B|]. split; [|split].
  - unfold d. rewrite !jaccard_value, EW by exact Hv. fold W. rewrite (union_comm v u), (sym_diff_comm v u). reflexivity.
  - rewrite jaccard_value. fold W. rewrite sym_diff_self. destruct (Req_EM_T _ 0); [reflexivity|]. unfold Rdiv. ring.
  - intros t Ht. unfold d. rewrite !jaccard_value, (EW v Hv). fold W.
    destruct (weight_tri W u v t Hv Ht H) as (T1 & T2 & T3).
    apply (steinhaus (weight_of W u) (weight_of W v) (weight_of W t)); try (apply weight_nonneg; exact H); try (apply weight_union; congruence); try (apply diff_le_union; exact H); assumption.
Qed.
(** With positive weights: 0 exactly on equal masks, 1 exactly on disjoint masks that are not both empty. *)
Lemma weight_zero_pos w m : Forall (Rlt 0) w -> length w = length m ->
  (weight_of w m = 0 <-> forall i, nth_error m i <> Some true).
Proof.
  unfold weight_of. revert w; induction m as [|b m IH]; intros [|x w] H HL; try discriminate.
  - split; [intros _ [|i]; discriminate|reflexivity].
  - inversion H; subst. injection HL as HL. cbn [map2 rsum].
    assert (N : 0 <= rsum (map2 (fun (b : bool) x => if b then x else 0) m w)).
    { apply (weight_nonneg w m). revert H3. apply Forall_impl. intros; lra. }
    destruct b.
    + split; [lra|]. intros Q. specialize (Q O). contradiction Q. reflexivity.
    + rewrite Rplus_0_l, (IH w H3 HL). split; intros Q.
      * intros [|i]; [discriminate|apply Q].
      * intros i. apply (Q (S i)).
Qed.
Theorem C75_jaccard_positive : forall u v w, let W := weights_for u w in
  length v = length u -> length W = length u -> Forall (Rlt 0) W ->
  (jaccard_distance u v w = 0 <-> u = v) /\
  (jaccard_distance u v w = 1 <->
     (forall i, ~ (nth_error u i = Some true /\ nth_error v i = Some true)) /\
     (exists i, nth_error u i = Some true \/ nth_error v i = Some true)).
Proof.
  intros u v w W Hv HW H.
  assert (H0 : Forall (Rle 0) W) by (revert H; apply Forall_impl; intros; lra).
  assert (LU : length (union u v) = length u) by (unfold union; rewrite map2_length; lia).
  assert (LD : length (sym_diff u v) = length u) by (unfold sym_diff; rewrite map2_length; lia).
  pose proof (weight_zero_pos W (union u v) H ltac:(congruence)) as ZU.
  pose proof (weight_zero_pos W (sym_diff u v) H ltac:(congruence)) as ZD.
  pose proof (diff_le_union W u v H0) as LE. pose proof (weight_nonneg W (sym_diff u v) H0) as N0.
  assert (EQ : (forall i, nth_error (sym_diff u v) i <> Some true) <-> u = v).
  { clear - Hv. unfold sym_diff. revert v Hv; induction u as [|a u IH]; intros [|b v] HL; try discriminate.
    - split; [reflexivity|]. intros _ [|i]; discriminate.
    - injection HL as HL. specialize (IH v HL). cbn [map2]. split.
      + intros Q. f_equal; [specialize (Q O); cbn in Q; destruct a, b; cbn in Q; congruence|]. apply IH. intros i. apply (Q (S i)).
      + intros E. injection E as -> E. intros [|i]; [cbn; rewrite xorb_nilpotent; discriminate|]. cbn. apply IH. exact E. }
  assert (EX : (exists i, nth_error (union u v) i = Some true) <-> exists i, nth_error u i = Some true \/ nth_error v i = Some true).
  { assert (P : forall i, nth_error (union u v) i = Some true <-> nth_error u i = Some true \/ nth_error v i = Some true).
    { intros i. unfold union. rewrite map2_nth. destruct (nth_error u i) as [a|] eqn:Ea, (nth_error v i) as [b|] eqn:Eb.
      - destruct a, b; cbn; intuition congruence.
      - apply nth_error_None in Eb. assert (i < length u)%nat by (apply nth_error_Some; congruence). lia.
      - apply nth_error_None in Ea. assert (i < length v)%nat by (apply nth_error_Some; congruence). lia.
      - intuition congruence. }
    split; intros (i & Q); exists i; apply P; exact Q. }
  (* weight of the intersection *)
  assert (IN : weight_of W (union u v) - weight_of W (sym_diff u v) = weight_of W (map2 andb u v)).
  { clear - Hv HW. unfold weight_of, union, sym_diff. assert (L : forall u v W, length v = length u -> length W = length u ->
      rsum (map2 (fun (b : bool) x => if b then x else 0) (map2 orb u v) W) - rsum (map2 (fun (b : bool) x => if b then x else 0) (map2 xorb u v) W)
      = rsum (map2 (fun (b : bool) x => if b then x else 0) (map2 andb u v) W)).
    { clear. induction u as [|a u IH]; intros [|b v] [|x W] A B; try discriminate; [cbn; lra|]. injection A as A; injection B as B.
      specialize (IH v W A B). cbn [map2 rsum] in *. destruct a, b; cbn [orb xorb andb]; lra. }
    apply L; assumption. }
  pose proof (weight_zero_pos W (map2 andb u v) H ltac:(rewrite map2_length; lia)) as ZA.
  assert (DJ : (forall i, nth_error (map2 andb u v) i <> Some true) <-> forall i, ~ (nth_error u i = Some true /\ nth_error v i = Some true)).
  { split; intros Q i; specialize (Q i); rewrite map2_nth in *.
    - intros (A & B). rewrite A, B in Q. apply Q. reflexivity.
    - destruct (nth_error u i) as [a|], (nth_error v i) as [b|]; try discriminate. destruct a, b; cbn; try discriminate. exfalso. apply Q. auto. }
  rewrite jaccard_value. fold W. destruct (Req_EM_T (weight_of W (union u v)) 0) as [E|N].
  - split; [split; [intros _|reflexivity]; apply EQ, ZD; lra|]. split; [lra|]. intros (_ & Q). exfalso.
    apply EX in Q. destruct Q as (i & Q). exact (proj1 ZU E i Q).
  - assert (DZ : weight_of W (sym_diff u v) / weight_of W (union u v) = 0 <-> weight_of W (sym_diff u v) = 0).
    { split; intros Q; [|rewrite Q; unfold Rdiv; ring]. apply (Rmult_eq_reg_r (/ weight_of W (union u v))); [|apply Rinv_neq_0_compat, N]. rewrite Rmult_0_l. exact Q. }
    split; [rewrite DZ, ZD; exact EQ|].
    assert (DO : weight_of W (sym_diff u v) / weight_of W (union u v) = 1 <-> weight_of W (map2 andb u v) = 0).
    { rewrite <- IN. split; intros Q.
      - apply (Rmult_eq_compat_r (weight_of W (union u v))) in Q. unfold Rdiv in Q. rewrite Rmult_assoc, Rinv_l in Q by exact N. lra.
      - replace (weight_of W (sym_diff u v)) with (weight_of W (union u v)) by lra. field. exact N. }
    rewrite DO, ZA, DJ. split; [|tauto]. intros Q. split; [exact Q|]. apply EX.
    destruct (existsb (fun b => b) (union u v)) eqn:X.
    + apply existsb_exists in X. destruct X as (b & Hin & Hb). subst. apply In_nth_error in Hin. exact Hin.
    + exfalso. apply N, ZU. intros i Hi. apply nth_error_In in Hi.
      assert (existsb (fun b => b) (union u v) = true) by (apply existsb_exists; exists true; auto). congruence.
Qed.
Example C75_demo : jaccard_distance [true; true; false] [false; true; true] (Some [1; 2; 3]) = 2 / 3 /\
  jaccard_distance [true; true; false] [false; true; false] None = 1 / 2.
Proof.
  unfold jaccard_distance. cbn. split; destruct (Req_EM_T _ 0); lra.
Qed.

Print Assumptions C70_c_parameter.
Print Assumptions C70_errors.
Print Assumptions C71_thrust_objective.
Print Assumptions C71_thrust_result.
Print Assumptions C72_box_covers.
Print Assumptions C72_axis_sign.
Print Assumptions C72_global_optimum.
Print Assumptions C73_spherocity_objective.
Print Assumptions C73_parallel_axis_raises.
Print Assumptions C74_inclination_gradient_partial.
Print Assumptions C74_inclination_gradient_refuted.
Print Assumptions C75_jaccard.
Print Assumptions C75_jaccard_positive.

Print Assumptions C72_box_once.
