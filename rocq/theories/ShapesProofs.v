(** Lemmas about the event-shape kernels. *)
From Verif Require Import Prelude Keys SpecReal SpecShapes RealBase Shapes.
From Coq Require Import Permutation.
Open Scope R_scope.

Lemma fdiv_ok a b : b <> 0 -> fdiv a b = Ok (a / b).
Proof. intros H. unfold fdiv. destruct (Req_EM_T b 0); [contradiction|reflexivity]. Qed.

Lemma three_norm_zero : three_norm 0 0 0 = Err ZeroDivisionError.
Proof.
  unfold three_norm, fdiv. rewrite Rabs_R0.
  replace (Rmax (Rmax 0 0) 0) with 0 by (unfold Rmax; repeat destruct Rle_dec; lra).
  destruct (Req_EM_T 0 0); [reflexivity|contradiction].
Qed.

Lemma three_norm_ok x y z : x * x + y * y + z * z <> 0 -> three_norm x y z = Ok (sqrt (x * x + y * y + z * z)).
Proof.
  intros H. unfold three_norm.
  set (m := Rmax (Rmax (Rabs x) (Rabs y)) (Rabs z)).
  assert (Hx : Rabs x <= m) by (unfold m; eapply Rle_trans; [apply Rmax_l|apply Rmax_l]).
  assert (Hy : Rabs y <= m) by (unfold m; eapply Rle_trans; [apply Rmax_r|apply Rmax_l]).
  assert (Hz : Rabs z <= m) by apply Rmax_r.
  assert (Hm : 0 < m).
  { pose proof (Rabs_pos x). destruct (Rtotal_order m 0) as [|[E|]]; [lra| |lra].
    exfalso. apply H. pose proof (Rabs_pos y). pose proof (Rabs_pos z).
    assert (Ex : x = 0) by (destruct (Req_dec x 0) as [|Q]; [assumption|apply Rabs_pos_lt in Q; lra]).
    assert (Ey : y = 0) by (destruct (Req_dec y 0) as [|Q]; [assumption|apply Rabs_pos_lt in Q; lra]).
    assert (Ez : z = 0) by (destruct (Req_dec z 0) as [|Q]; [assumption|apply Rabs_pos_lt in Q; lra]).
    subst. lra. }
  rewrite fdiv_ok by lra. cbn [bind]. f_equal.
  rewrite <- (sqrt_Rsqr m) at 1 by lra. rewrite <- sqrt_mult_alt by apply Rle_0_sqr.
  f_equal. unfold Rsqr. field. lra.
Qed.

Lemma p_sq_nonneg p : 0 <= p_sq p.
Proof. unfold p_sq. nra. Qed.
Lemma norm3_sq p : norm3 p * norm3 p = p_sq p.
Proof. apply sqr_sqrt, p_sq_nonneg. Qed.
Lemma norm3_nonneg p : 0 <= norm3 p.
Proof. apply sqrt_pos. Qed.
Lemma norm3_pos p : p_sq p <> 0 -> 0 < norm3 p.
Proof. intros H. apply sqrt_lt_R0. pose proof (p_sq_nonneg p). lra. Qed.
Lemma three_norm_mom p : p_sq p <> 0 -> three_norm (px p) (py p) (pz p) = Ok (norm3 p).
Proof. intros H. apply three_norm_ok, H. Qed.
Lemma total_norm_pos l : l <> [] -> (forall p, In p l -> p_sq p <> 0) -> 0 < total_norm l.
Proof. intros Hn H. apply rsum_map_pos; [assumption|]. intros p Hp. apply norm3_pos, H, Hp. Qed.

(** Cauchy-Schwarz for one momentum and one axis. *)
Lemma lagrange p n : along p n * along p n + cross_sq p n = p_sq p * vnorm_sq n.
Proof. unfold along, cross_sq, p_sq, vnorm_sq. ring. Qed.
Lemma cross_nonneg p n : 0 <= cross_sq p n.
Proof. unfold cross_sq. cbv zeta. repeat apply Rplus_le_le_0_compat; apply Rle_0_sqr. Qed.
Lemma unit_axis_norm a i : vnorm_sq (unit_axis a i) = 1.
Proof.
  unfold vnorm_sq, unit_axis. cbn [vx vy vz].
  pose proof (sin2_cos2 a). pose proof (sin2_cos2 i). unfold Rsqr in *.
  replace 1 with (sin i * sin i * (sin a * sin a + cos a * cos a) + cos i * cos i) by (rewrite H; lra). ring.
Qed.
Lemma along_le p n : vnorm_sq n = 1 -> Rabs (along p n) <= norm3 p.
Proof.
  intros H. unfold norm3. rewrite <- sqrt_Rsqr_abs. apply sqrt_le_1_alt. unfold Rsqr.
  pose proof (lagrange p n). pose proof (cross_nonneg p n). rewrite H in H0. lra.
Qed.
Lemma cross_le p n : vnorm_sq n = 1 -> sqrt (cross_sq p n) <= norm3 p.
Proof.
  intros H. unfold norm3. apply sqrt_le_1_alt.
  pose proof (lagrange p n). rewrite H in H0. pose proof (Rle_0_sqr (along p n)). unfold Rsqr in *. lra.
Qed.

(** *** Thrust *)
Lemma rsum_acc {A} (f : A -> R) l a : rsum (map f l) + a = a + rsum (map f l).
Proof. lra. Qed.

Definition thrust_terms (a i : R) (p : mom) :=
  (Rabs (along p (unit_axis a i)),
   copysign 1 (along p (unit_axis a i)) * (py p * sin i * cos a - px p * sin i * sin a),
   copysign 1 (along p (unit_axis a i)) * (px p * cos i * cos a + py p * cos i * sin a - pz p * sin i)).

Lemma along_comm a i p :
  sin i * cos a * px p + sin i * sin a * py p + cos i * pz p = along p (unit_axis a i).
Proof. unfold along, unit_axis. cbn [vx vy vz]. ring. Qed.

Lemma thrust_fold a i l : (forall p, In p l -> p_sq p <> 0) -> forall s,
  foldM (thrust_step a i) l s =
  Ok (TAcc (th_abs s + rsum (map (fun p => fst (fst (thrust_terms a i p))) l))
           (th_phi s + rsum (map (fun p => snd (fst (thrust_terms a i p))) l))
           (th_theta s + rsum (map (fun p => snd (thrust_terms a i p)) l))
           (th_norm s + total_norm l)).
Proof.
  unfold total_norm. induction l as [|p l IH]; intros H s.
  - cbn [foldM map rsum]. destruct s as [s1 s2 s3 s4]. cbn [th_abs th_phi th_theta th_norm]. f_equal. f_equal; lra.
  - cbn [foldM]. unfold thrust_step at 1.
    rewrite three_norm_mom by (apply H; left; reflexivity). rewrite !along_comm. cbn [bind].
    rewrite IH by (intros q Hq; apply H; right; exact Hq). cbn [th_abs th_phi th_theta th_norm].
    cbn [map rsum thrust_terms fst snd]. f_equal. f_equal; ring.
Qed.

Lemma thrust_value a i l : l <> [] -> (forall p, In p l -> p_sq p <> 0) ->
  thrust_with_grad a i l =
  Ok (- thrust_along l (unit_axis a i),
      (- (rsum (map (fun p => snd (fst (thrust_terms a i p))) l) / total_norm l),
       - (rsum (map (fun p => snd (thrust_terms a i p)) l) / total_norm l))).
Proof.
  intros Hn H. pose proof (total_norm_pos l Hn H) as HT.
  unfold thrust_with_grad. rewrite thrust_fold by exact H. cbn [bind th_abs th_phi th_theta th_norm].
  rewrite !Rplus_0_l. rewrite fdiv_ok by lra. cbn [bind]. reflexivity.
Qed.

Lemma thrust_bounds l n : l <> [] -> (forall p, In p l -> p_sq p <> 0) -> vnorm_sq n = 1 ->
  0 <= thrust_along l n <= 1.
Proof.
  intros Hn H Hu. pose proof (total_norm_pos l Hn H) as HT. unfold thrust_along. split.
  - apply Rmult_le_pos; [|left; apply Rinv_0_lt_compat, HT]. apply rsum_map_nonneg. intros; apply Rabs_pos.
  - apply Rmult_le_reg_r with (total_norm l); [exact HT|]. unfold Rdiv. rewrite Rmult_assoc, Rinv_l, Rmult_1_r, Rmult_1_l by lra.
    apply rsum_map_le. intros p _. apply along_le, Hu.
Qed.

(** Derivative of a finite sum. *)
Lemma deriv_rsum {A} (f : A -> R -> R) (f' : A -> R) l x :
  (forall a, In a l -> derivable_pt_lim (f a) x (f' a)) ->
  derivable_pt_lim (fun t => rsum (map (fun a => f a t) l)) x (rsum (map f' l)).
Proof.
  induction l as [|a l IH]; intros H.
  - cbn [map rsum]. apply derivable_pt_lim_const.
  - cbn [map rsum]. apply (derivable_pt_lim_plus (f a) (fun t => rsum (map (fun b => f b t) l))).
    + apply H. left; reflexivity.
    + apply IH. intros b Hb. apply H. right; exact Hb.
Qed.
Lemma deriv_eq f x l1 l2 : l1 = l2 -> derivable_pt_lim f x l1 -> derivable_pt_lim f x l2.
Proof. intros ->; auto. Qed.
Lemma deriv_ext f g x l : (forall t, f t = g t) -> derivable_pt_lim f x l -> derivable_pt_lim g x l.
Proof.
  intros E H eps He. destruct (H eps He) as [d Hd]. exists d. intros h h0 hd. rewrite <- !E. auto.
Qed.
(** d/dt (A cos t + B sin t + C). *)
Lemma deriv_wave A B C x :
  derivable_pt_lim (fun t => A * cos t + B * sin t + C) x (- A * sin x + B * cos x).
Proof.
  apply deriv_eq with (A * (- sin x) + B * cos x + 0); [ring|].
  apply (derivable_pt_lim_plus (fun t => A * cos t + B * sin t) (fun _ => C)); [|apply derivable_pt_lim_const].
  apply (derivable_pt_lim_plus (fun t => A * cos t) (fun t => B * sin t)).
  - apply (derivable_pt_lim_scal cos), derivable_pt_lim_cos.
  - apply (derivable_pt_lim_scal sin), derivable_pt_lim_sin.
Qed.
Lemma deriv_abs f x l : f x <> 0 -> derivable_pt_lim f x l ->
  derivable_pt_lim (fun t => Rabs (f t)) x (copysign 1 (f x) * l).
Proof.
  intros H0 H. apply (derivable_pt_lim_comp f Rabs x l); [exact H|].
  unfold copysign. rewrite Rabs_R1. destruct (Rlt_dec (f x) 0).
  - apply Rabs_derive_2; assumption.
  - apply Rabs_derive_1. lra.
Qed.

Lemma along_phi p i a :
  along p (unit_axis a i) = (px p * sin i) * cos a + (py p * sin i) * sin a + pz p * cos i.
Proof. unfold along, unit_axis; cbn [vx vy vz]. ring. Qed.
Lemma along_theta p i a :
  along p (unit_axis a i) = pz p * cos i + (px p * cos a + py p * sin a) * sin i + 0.
Proof. unfold along, unit_axis; cbn [vx vy vz]. ring. Qed.

Lemma thrust_deriv_phi a i l : total_norm l <> 0 -> (forall p, In p l -> along p (unit_axis a i) <> 0) ->
  derivable_pt_lim (fun t => thrust_along l (unit_axis t i)) a
    (rsum (map (fun p => snd (fst (thrust_terms a i p))) l) / total_norm l).
Proof.
  intros HT H. unfold thrust_along, Rdiv.
  apply deriv_eq with (rsum (map (fun p => snd (fst (thrust_terms a i p))) l) * / total_norm l
     + rsum (map (fun p => Rabs (along p (unit_axis a i))) l) * 0); [ring|].
  apply (derivable_pt_lim_mult (fun t => rsum (map (fun p => Rabs (along p (unit_axis t i))) l)) (fun _ => / total_norm l));
    [|apply derivable_pt_lim_const].
  apply (deriv_rsum (fun p t => Rabs (along p (unit_axis t i)))). intros p Hp. cbn [thrust_terms fst snd].
  apply (deriv_abs (fun t => along p (unit_axis t i))); [apply H, Hp|].
  apply deriv_ext with (fun t => (px p * sin i) * cos t + (py p * sin i) * sin t + pz p * cos i).
  - intros t. symmetry. apply along_phi.
  - eapply deriv_eq; [|apply deriv_wave]. ring.
Qed.
Lemma thrust_deriv_theta a i l : total_norm l <> 0 -> (forall p, In p l -> along p (unit_axis a i) <> 0) ->
  derivable_pt_lim (fun t => thrust_along l (unit_axis a t)) i
    (rsum (map (fun p => snd (thrust_terms a i p)) l) / total_norm l).
Proof.
  intros HT H. unfold thrust_along, Rdiv.
  apply deriv_eq with (rsum (map (fun p => snd (thrust_terms a i p)) l) * / total_norm l
     + rsum (map (fun p => Rabs (along p (unit_axis a i))) l) * 0); [ring|].
  apply (derivable_pt_lim_mult (fun t => rsum (map (fun p => Rabs (along p (unit_axis a t))) l)) (fun _ => / total_norm l));
    [|apply derivable_pt_lim_const].
  apply (deriv_rsum (fun p t => Rabs (along p (unit_axis a t)))). intros p Hp. cbn [thrust_terms fst snd].
  apply (deriv_abs (fun t => along p (unit_axis a t))); [apply H, Hp|].
  apply deriv_ext with (fun t => pz p * cos t + (px p * cos a + py p * sin a) * sin t + 0).
  - intros t. symmetry. apply along_theta.
  - eapply deriv_eq; [|apply deriv_wave]. ring.
Qed.

(** *** Spherocity *)
Definition sph_theta (a i : R) (p : mom) : R :=
  let x := px p in let y := py p in let z := pz p in
  let c2p := 2 * cos a * cos a - 1 in let s2p := 2 * cos a * sin a in
  let c2t := 2 * cos i * cos i - 1 in let s2t := 2 * cos i * sin i in
  1 / sqrt (cross_sq p (unit_axis a i)) * (-2 * c2t * (x * y * cos a + y * z * sin a)
        - / 2 * s2t * ((x * x + y * y) + (x * x - y * y) * c2p - 2 * z * z + 2 * x * y * s2p)).
Definition sph_phi (a i : R) (p : mom) : R :=
  let x := px p in let y := py p in let z := pz p in
  let c2p := 2 * cos a * cos a - 1 in let s2p := 2 * cos a * sin a in
  let c2t := 2 * cos i * cos i - 1 in let s2t := 2 * cos i * sin i in
  1 / sqrt (cross_sq p (unit_axis a i)) * (/ 2 * (c2t - 1) * (2 * x * y * c2p - (x * x - y * y) * s2p)
        - s2t * (y * z * cos a - x * z * sin a)).

Lemma three_norm_cross a i p : cross_sq p (unit_axis a i) <> 0 ->
  three_norm (py p * cos i - pz p * (sin i * sin a)) (pz p * (sin i * cos a) - px p * cos i)
             (px p * (sin i * sin a) - py p * (sin i * cos a)) = Ok (sqrt (cross_sq p (unit_axis a i))).
Proof. intros H. rewrite three_norm_ok by exact H. reflexivity. Qed.

Lemma cross_p a i p : cross_sq p (unit_axis a i) <> 0 -> p_sq p <> 0.
Proof.
  intros H E. apply H. pose proof (lagrange p (unit_axis a i)). pose proof (cross_nonneg p (unit_axis a i)).
  pose proof (Rle_0_sqr (along p (unit_axis a i))). unfold Rsqr in *. rewrite E, Rmult_0_l in *. lra.
Qed.

Lemma sph_fold a i l : (forall p, In p l -> cross_sq p (unit_axis a i) <> 0) -> forall s,
  foldM (spherocity_step a i) l s =
  Ok (SAcc (sp_cross s + rsum (map (fun p => sqrt (cross_sq p (unit_axis a i))) l))
           (sp_norm s + total_norm l)
           (sp_theta s + rsum (map (sph_theta a i) l))
           (sp_phi s + rsum (map (sph_phi a i) l))).
Proof.
  unfold total_norm. induction l as [|p l IH]; intros H s.
  - cbn [foldM map rsum]. destruct s as [s1 s2 s3 s4]. cbn [sp_cross sp_norm sp_theta sp_phi]. f_equal. f_equal; lra.
  - cbn [foldM]. unfold spherocity_step at 1.
    assert (Hp : cross_sq p (unit_axis a i) <> 0) by (apply H; left; reflexivity).
    rewrite three_norm_mom by (eapply cross_p; exact Hp). cbn [bind].
    rewrite three_norm_cross by exact Hp. cbn [bind].
    rewrite fdiv_ok; [|apply Rgt_not_eq, sqrt_lt_R0; pose proof (cross_nonneg p (unit_axis a i)); lra].
    cbn [bind]. rewrite IH by (intros q Hq; apply H; right; exact Hq). cbn [sp_cross sp_norm sp_theta sp_phi].
    cbn [map rsum]. f_equal. f_equal; try (unfold sph_theta at 2); try (unfold sph_phi at 2); ring.
Qed.

Lemma sph_value a i l : l <> [] -> (forall p, In p l -> cross_sq p (unit_axis a i) <> 0) ->
  let S := rsum (map (fun p => sqrt (cross_sq p (unit_axis a i))) l) in
  let f := 4 / (PI * total_norm l) in
  spherocity_with_grad a i l =
  Ok (f * f * S * S, (f * f * S * rsum (map (sph_phi a i) l), f * f * S * rsum (map (sph_theta a i) l))).
Proof.
  intros Hn H S f. pose proof (total_norm_pos l Hn (fun p Hp => cross_p a i p (H p Hp))) as HT.
  unfold spherocity_with_grad. rewrite sph_fold by exact H. cbn [bind sp_cross sp_norm sp_theta sp_phi].
  rewrite !Rplus_0_l. rewrite fdiv_ok; [reflexivity|].
  pose proof PI_RGT_0. apply Rgt_not_eq, Rmult_lt_0_compat; assumption.
Qed.

Lemma sph_alt l n : total_norm l <> 0 ->
  let S := rsum (map (fun p => sqrt (cross_sq p n)) l) in
  let f := 4 / (PI * total_norm l) in
  f * f * S * S = spherocity_along l n.
Proof. intros H S f. unfold f, spherocity_along. fold S. pose proof PI_RGT_0. field. split; lra. Qed.

Lemma sph_bounds l n : l <> [] -> (forall p, In p l -> p_sq p <> 0) -> vnorm_sq n = 1 ->
  0 <= spherocity_along l n <= (4 / PI) * (4 / PI).
Proof.
  intros Hn H Hu. pose proof (total_norm_pos l Hn H) as HT. pose proof PI_RGT_0 as HP.
  assert (B : 0 <= rsum (map (fun p => sqrt (cross_sq p n)) l) / total_norm l <= 1).
  { split.
    - apply Rmult_le_pos; [|left; apply Rinv_0_lt_compat, HT]. apply rsum_map_nonneg. intros; apply sqrt_pos.
    - apply Rmult_le_reg_r with (total_norm l); [exact HT|]. unfold Rdiv. rewrite Rmult_assoc, Rinv_l, Rmult_1_r, Rmult_1_l by lra.
      apply rsum_map_le. intros p _. apply cross_le, Hu. }
  unfold spherocity_along. cbv zeta. set (r := rsum _ / _) in *. set (k := 4 / PI).
  assert (0 < k) by (unfold k, Rdiv; apply Rmult_lt_0_compat; [lra|apply Rinv_0_lt_compat; lra]).
  split; [apply Rle_0_sqr|]. assert (0 <= k * r <= k) by nra. nra.
Qed.

(** |p x n|^2 as a function of either angle. *)
Lemma cross_unit p a i :
  cross_sq p (unit_axis a i) = p_sq p - along p (unit_axis a i) * along p (unit_axis a i).
Proof. pose proof (lagrange p (unit_axis a i)) as H. rewrite unit_axis_norm in H. lra. Qed.

Lemma deriv_cross_sqrt (u : R -> R) x u' c : 0 < c - u x * u x -> derivable_pt_lim u x u' ->
  derivable_pt_lim (fun t => sqrt (c - u t * u t)) x (- (u x * u') / sqrt (c - u x * u x)).
Proof.
  intros Hpos Hu.
  apply deriv_eq with (/ (2 * sqrt (c - u x * u x)) * (0 - (u' * u x + u x * u'))).
  { field. apply Rgt_not_eq, sqrt_lt_R0. exact Hpos. }
  apply (derivable_pt_lim_comp (fun t => c - u t * u t) sqrt x).
  - apply (derivable_pt_lim_minus (fun _ => c) (fun t => u t * u t)); [apply derivable_pt_lim_const|].
    apply (derivable_pt_lim_mult u u); assumption.
  - apply derivable_pt_lim_sqrt. exact Hpos.
Qed.

Definition d_phi (p : mom) (a i : R) := - (px p * sin i) * sin a + (py p * sin i) * cos a.
Definition d_theta (p : mom) (a i : R) := - pz p * sin i + (px p * cos a + py p * sin a) * cos i.

Lemma cross_deriv_phi p a i : cross_sq p (unit_axis a i) <> 0 ->
  derivable_pt_lim (fun t => sqrt (cross_sq p (unit_axis t i))) a
    (- (along p (unit_axis a i) * d_phi p a i) / sqrt (cross_sq p (unit_axis a i))).
Proof.
  intros H. pose proof (cross_nonneg p (unit_axis a i)).
  apply deriv_ext with (fun t => sqrt (p_sq p - along p (unit_axis t i) * along p (unit_axis t i))).
  - intros t. rewrite cross_unit. reflexivity.
  - rewrite cross_unit in *. apply (deriv_cross_sqrt (fun t => along p (unit_axis t i))); [lra|].
    apply deriv_ext with (fun t => (px p * sin i) * cos t + (py p * sin i) * sin t + pz p * cos i).
    + intros t; symmetry; apply along_phi.
    + apply deriv_wave.
Qed.
Lemma cross_deriv_theta p a i : cross_sq p (unit_axis a i) <> 0 ->
  derivable_pt_lim (fun t => sqrt (cross_sq p (unit_axis a t))) i
    (- (along p (unit_axis a i) * d_theta p a i) / sqrt (cross_sq p (unit_axis a i))).
Proof.
  intros H. pose proof (cross_nonneg p (unit_axis a i)).
  apply deriv_ext with (fun t => sqrt (p_sq p - along p (unit_axis a t) * along p (unit_axis a t))).
  - intros t. rewrite cross_unit. reflexivity.
  - rewrite cross_unit in *. apply (deriv_cross_sqrt (fun t => along p (unit_axis a t))); [lra|].
    apply deriv_ext with (fun t => pz p * cos t + (px p * cos a + py p * sin a) * sin t + 0).
    + intros t; symmetry; apply along_theta.
    + eapply deriv_eq; [|apply deriv_wave]. reflexivity.
Qed.

(** Derivative of the whole objective from those of its terms. *)
Lemma sph_deriv (g : mom -> R -> R) (g' : mom -> R) l x T :
  (forall p, In p l -> derivable_pt_lim (g p) x (g' p)) ->
  let S t := rsum (map (fun p => g p t) l) in
  derivable_pt_lim (fun t => 4 / PI * (S t / T) * (4 / PI * (S t / T))) x
    (2 * (4 / PI * / T) * (4 / PI * / T) * S x * rsum (map g' l)).
Proof.
  intros H S. set (k := 4 / PI * / T).
  apply deriv_ext with (fun t => (k * S t) * (k * S t)); [intros t; unfold k, Rdiv; ring|].
  apply deriv_eq with (k * rsum (map g' l) * (k * S x) + k * S x * (k * rsum (map g' l))); [ring|].
  assert (D : derivable_pt_lim S x (rsum (map g' l))) by (apply deriv_rsum; exact H).
  apply (derivable_pt_lim_mult (fun t => k * S t) (fun t => k * S t)); apply (derivable_pt_lim_scal S k); exact D.
Qed.

Lemma sph_phi_eq p a i : cross_sq p (unit_axis a i) <> 0 ->
  sph_phi a i p = 2 * (- (along p (unit_axis a i) * d_phi p a i) / sqrt (cross_sq p (unit_axis a i))).
Proof.
  intros H. assert (HS : sqrt (cross_sq p (unit_axis a i)) <> 0).
  { apply Rgt_not_eq, sqrt_lt_R0. pose proof (cross_nonneg p (unit_axis a i)). lra. }
  unfold sph_phi. cbv zeta. set (r := sqrt _) in *. unfold d_phi. rewrite along_phi.
  pose proof (sin2_cos2 a) as Ha. pose proof (sin2_cos2 i) as Hi. unfold Rsqr in *.
  replace (2 * cos i * cos i - 1 - 1) with (- 2 * (sin i * sin i)) by lra.
  replace (2 * cos a * cos a - 1) with (cos a * cos a - sin a * sin a) by lra.
  field. exact HS.
Qed.

(** What the inclination component lacks: the code has x*y where the derivative has x*z. *)
Definition theta_defect (a i : R) (p : mom) : R :=
  / sqrt (cross_sq p (unit_axis a i)) * (-2 * (2 * cos i * cos i - 1) * cos a * (px p * py p - px p * pz p)).
Lemma sph_theta_eq p a i : cross_sq p (unit_axis a i) <> 0 ->
  sph_theta a i p = 2 * (- (along p (unit_axis a i) * d_theta p a i) / sqrt (cross_sq p (unit_axis a i)))
    + theta_defect a i p.
Proof.
  intros H. assert (HS : sqrt (cross_sq p (unit_axis a i)) <> 0).
  { apply Rgt_not_eq, sqrt_lt_R0. pose proof (cross_nonneg p (unit_axis a i)). lra. }
  unfold sph_theta, theta_defect. cbv zeta. set (r := sqrt _) in *. unfold d_theta. rewrite along_theta.
  pose proof (sin2_cos2 a) as Ha. pose proof (sin2_cos2 i) as Hi. unfold Rsqr in *.
  replace (px p * px p + py p * py p + (px p * px p - py p * py p) * (2 * cos a * cos a - 1))
    with (2 * (px p * px p * (cos a * cos a) + py p * py p * (1 - cos a * cos a))) by ring.
  replace (1 - cos a * cos a) with (sin a * sin a) by lra.
  replace (2 * cos i * cos i - 1) with (cos i * cos i - sin i * sin i) by lra.
  field. exact HS.
Qed.

(** *** C-parameter *)
Definition cterm (p q : mom) : R := norm3 p * norm3 q * sin_sq p q.
Lemma cterm_code p q : p_sq p <> 0 -> p_sq q <> 0 ->
  cterm p q = norm3 p * norm3 q - (dot3 p q * dot3 p q) / (norm3 p * norm3 q).
Proof. intros Hp Hq. unfold cterm, sin_sq. apply norm3_pos in Hp, Hq. field. split; lra. Qed.
Lemma cterm_sym p q : cterm p q = cterm q p.
Proof.
  unfold cterm, sin_sq. rewrite (Rmult_comm (norm3 p) (norm3 q)).
  replace (dot3 p q) with (dot3 q p) by (unfold dot3; ring). reflexivity.
Qed.
Lemma cterm_self p : p_sq p <> 0 -> cterm p p = 0.
Proof.
  intros H. rewrite cterm_code by assumption. replace (dot3 p p) with (p_sq p) by reflexivity. rewrite norm3_sq.
  field. exact H.
Qed.
Lemma lagrange3 p q :
  p_sq p * p_sq q - dot3 p q * dot3 p q = cross_sq p (Vec (px q) (py q) (pz q)).
Proof. unfold p_sq, dot3, cross_sq. cbn [vx vy vz]. ring. Qed.
Lemma cterm_cross p q : p_sq p <> 0 -> p_sq q <> 0 ->
  cterm p q = cross_sq p (Vec (px q) (py q) (pz q)) / (norm3 p * norm3 q).
Proof.
  intros Hp Hq. rewrite cterm_code, <- lagrange3, <- !norm3_sq by assumption. apply norm3_pos in Hp, Hq. field. split; lra.
Qed.
Lemma cterm_nonneg p q : p_sq p <> 0 -> p_sq q <> 0 -> 0 <= cterm p q.
Proof.
  intros Hp Hq. rewrite cterm_cross by assumption. apply norm3_pos in Hp, Hq.
  apply Rmult_le_pos; [apply cross_nonneg|]. left. apply Rinv_0_lt_compat, Rmult_lt_0_compat; assumption.
Qed.

Lemma c_inner_fold p l : p_sq p <> 0 -> (forall q, In q l -> p_sq q <> 0) -> forall out,
  foldM (c_inner p (norm3 p)) l out = Ok (out + 2 * rsum (map (cterm p) l)).
Proof.
  intros Hp. induction l as [|q l IH]; intros H out.
  - cbn [foldM map rsum]. f_equal. lra.
  - cbn [foldM]. unfold c_inner at 1.
    assert (Hq : p_sq q <> 0) by (apply H; left; reflexivity).
    rewrite three_norm_mom by exact Hq. cbn [bind].
    rewrite fdiv_ok by (apply norm3_pos in Hp, Hq; apply Rgt_not_eq, Rmult_lt_0_compat; assumption). cbn [bind].
    rewrite IH by (intros; apply H; right; assumption). cbn [map rsum]. rewrite (cterm_code p q) by assumption.
    f_equal. unfold dot3. ring.
Qed.

Lemma c_outer_fold l : (forall q, In q l -> p_sq q <> 0) -> forall out ns,
  c_outer l out ns = Ok (out + rsum (map (fun p => rsum (map (cterm p) l)) l), ns + total_norm l).
Proof.
  unfold total_norm. induction l as [|p l IH]; intros H out ns.
  - cbn [c_outer map rsum]. f_equal. f_equal; lra.
  - cbn [c_outer].
    assert (Hp : p_sq p <> 0) by (apply H; left; reflexivity).
    rewrite three_norm_mom by exact Hp. cbn [bind].
    rewrite c_inner_fold; [|exact Hp|exact H]. cbn [bind].
    rewrite IH by (intros; apply H; right; assumption). cbn [map rsum]. rewrite cterm_self by exact Hp.
    rewrite (rsum_map_plus (fun q => cterm q p) (fun q => rsum (map (cterm q) l))).
    rewrite (rsum_map_ext (fun q => cterm q p) (cterm p)) by (intros; apply cterm_sym).
    f_equal. f_equal; ring.
Qed.

Lemma c_value l : l <> [] -> (forall q, In q l -> p_sq q <> 0) -> c_parameter l = Ok (c_textbook l).
Proof.
  intros Hn H. unfold c_parameter. rewrite c_outer_fold by exact H. cbn [bind fst snd]. rewrite !Rplus_0_l.
  apply fdiv_ok. pose proof (total_norm_pos l Hn H). apply Rgt_not_eq, Rmult_lt_0_compat; assumption.
Qed.

Lemma rsum_map_prod {A} (f g : A -> R) l k :
  rsum (map (fun p => rsum (map (fun q => f p * g q) k)) l) = rsum (map f l) * rsum (map g k).
Proof.
  induction l as [|p l IH]; cbn [map rsum]; [ring|]. rewrite IH. rewrite (rsum_map_scal (f p) g k). ring.
Qed.
Lemma rsum2_ext {A} (f g : A -> A -> R) l : (forall p q, In p l -> In q l -> f p q = g p q) ->
  rsum (map (fun p => rsum (map (f p) l)) l) = rsum (map (fun p => rsum (map (g p) l)) l).
Proof. intros H. apply rsum_map_ext. intros p Hp. apply rsum_map_ext. intros q Hq. apply H; assumption. Qed.
Lemma rsum2_plus {A} (f g : A -> A -> R) l :
  rsum (map (fun p => rsum (map (fun q => f p q + g p q) l)) l) =
  rsum (map (fun p => rsum (map (f p) l)) l) + rsum (map (fun p => rsum (map (g p) l)) l).
Proof.
  rewrite <- rsum_map_plus. apply rsum_map_ext. intros p _. apply rsum_map_plus.
Qed.

Definition mxx (f g : mom -> R) (l : list mom) : R := rsum (map (fun p => f p * g p / norm3 p) l).
Lemma c_tensor l : (forall q, In q l -> p_sq q <> 0) ->
  rsum (map (fun p => rsum (map (cterm p) l)) l) =
  total_norm l * total_norm l
  - (mxx px px l * mxx px px l + mxx py py l * mxx py py l + mxx pz pz l * mxx pz pz l
     + 2 * (mxx px py l * mxx px py l) + 2 * (mxx px pz l * mxx px pz l) + 2 * (mxx py pz l * mxx py pz l)).
Proof.
  intros H. unfold total_norm, mxx. rewrite <- !rsum_map_prod.
  transitivity (rsum (map (fun p => rsum (map (fun q =>
     norm3 p * norm3 q +
     (-1 * ((px p * px p / norm3 p) * (px q * px q / norm3 q)) + (-1 * ((py p * py p / norm3 p) * (py q * py q / norm3 q))
     + (-1 * ((pz p * pz p / norm3 p) * (pz q * pz q / norm3 q)) + (-2 * ((px p * py p / norm3 p) * (px q * py q / norm3 q))
     + (-2 * ((px p * pz p / norm3 p) * (px q * pz q / norm3 q)) + -2 * ((py p * pz p / norm3 p) * (py q * pz q / norm3 q)))))))) l)) l)).
  { apply rsum2_ext. intros p q Hp Hq. rewrite cterm_code by auto. apply H in Hp, Hq. apply norm3_pos in Hp, Hq.
    unfold dot3. field. split; lra. }
  rewrite !rsum2_plus.
  assert (SC : forall c (F : mom -> mom -> R),
     rsum (map (fun p => rsum (map (fun q => c * F p q) l)) l) = c * rsum (map (fun p => rsum (map (F p) l)) l)).
  { intros c F. rewrite <- rsum_map_scal. apply rsum_map_ext. intros p _. apply rsum_map_scal. }
  rewrite !SC. ring.
Qed.
Lemma trace_norm l : (forall q, In q l -> p_sq q <> 0) ->
  mxx px px l + mxx py py l + mxx pz pz l = total_norm l.
Proof.
  intros H. unfold mxx, total_norm. rewrite <- !rsum_map_plus. apply rsum_map_ext. intros p Hp.
  pose proof (norm3_sq p) as E. apply H, norm3_pos in Hp.
  transitivity (p_sq p / norm3 p); [unfold p_sq; field; lra|]. rewrite <- E. field. lra.
Qed.

Lemma c_bounds l : l <> [] -> (forall q, In q l -> p_sq q <> 0) -> 0 <= c_textbook l <= 1.
Proof.
  intros Hn H. pose proof (total_norm_pos l Hn H) as HT. unfold c_textbook.
  change (rsum (map (fun p => rsum (map (fun q => norm3 p * norm3 q * sin_sq p q) l)) l))
    with (rsum (map (fun p => rsum (map (cterm p) l)) l)).
  set (D := rsum (map (fun p => rsum (map (cterm p) l)) l)).
  assert (D0 : 0 <= D).
  { apply rsum_map_nonneg. intros p Hp. apply rsum_map_nonneg. intros q Hq. apply cterm_nonneg; auto. }
  assert (D1 : 3 / 2 * D <= total_norm l * total_norm l).
  { unfold D. rewrite c_tensor by exact H. pose proof (trace_norm l H) as ET. rewrite <- ET.
    generalize (mxx px px l) (mxx py py l) (mxx pz pz l) (mxx px py l) (mxx px pz l) (mxx py pz l). intros a b c d e f.
    pose proof (Rle_0_sqr (a - b)). pose proof (Rle_0_sqr (a - c)). pose proof (Rle_0_sqr (b - c)).
    pose proof (Rle_0_sqr d). pose proof (Rle_0_sqr e). pose proof (Rle_0_sqr f). unfold Rsqr in *. nra. }
  assert (T2 : 0 < total_norm l * total_norm l) by (apply Rmult_lt_0_compat; exact HT).
  unfold Rdiv at 1 3. split.
  - apply Rmult_le_pos; [lra|]. left. apply Rinv_0_lt_compat, T2.
  - apply Rmult_le_reg_r with (total_norm l * total_norm l); [exact T2|].
    rewrite Rmult_assoc, Rinv_l, Rmult_1_r, Rmult_1_l by lra. exact D1.
Qed.

Lemma rsum_zero {A} (f : A -> R) l : (forall x, In x l -> 0 <= f x) ->
  (rsum (map f l) = 0 <-> forall x, In x l -> f x = 0).
Proof.
  induction l as [|a l IH]; intros H; cbn [map rsum].
  - split; [intros _ x []|reflexivity].
  - assert (Ha : 0 <= f a) by (apply H; left; reflexivity).
    assert (Hl : 0 <= rsum (map f l)) by (apply rsum_map_nonneg; intros; apply H; right; assumption).
    assert (H' : forall x, In x l -> 0 <= f x) by (intros; apply H; right; assumption).
    split.
    + intros E x [->|Hx]; [lra|]. apply (proj1 (IH H')); [lra|exact Hx].
    + intros E. rewrite (E a (or_introl eq_refl)). rewrite (proj2 (IH H')); [lra|]. intros; apply E; right; assumption.
Qed.

Lemma cterm_parallel p q : p_sq p <> 0 -> p_sq q <> 0 -> (cterm p q = 0 <-> parallel p q).
Proof.
  intros Hp Hq. rewrite cterm_cross by assumption. pose proof (norm3_pos p Hp). pose proof (norm3_pos q Hq).
  assert (HN : 0 < norm3 p * norm3 q) by (apply Rmult_lt_0_compat; assumption).
  split.
  - intros E. assert (E' : cross_sq p (Vec (px q) (py q) (pz q)) = 0).
    { apply (Rmult_eq_reg_r (/ (norm3 p * norm3 q))); [|apply Rinv_neq_0_compat; lra]. rewrite Rmult_0_l. exact E. }
    unfold cross_sq in E'. cbn [vx vy vz] in E'.
    set (a := py p * pz q - pz p * py q) in *. set (b := pz p * px q - px p * pz q) in *. set (c := px p * py q - py p * px q) in *.
    assert (a = 0 /\ b = 0 /\ c = 0) as (Ea & Eb & Ec).
    { pose proof (Rle_0_sqr a) as A. pose proof (Rle_0_sqr b) as B. pose proof (Rle_0_sqr c) as C. unfold Rsqr in *.
      repeat split; apply Rsqr_0_uniq; unfold Rsqr; lra. }
    unfold a, b, c in *.
    exists (dot3 p q / p_sq p). unfold dot3.
    assert (Q : forall u v w, u * p_sq p = v * w -> u = v / p_sq p * w).
    { intros u v w E2. apply (Rmult_eq_reg_r (p_sq p)); [|exact Hp]. rewrite E2. field. exact Hp. }
    repeat split; apply Q; unfold p_sq.
    + transitivity ((px p * px q + py p * py q + pz p * pz q) * px p
        - py p * (px p * py q - py p * px q) + pz p * (pz p * px q - px p * pz q)); [ring|rewrite Eb, Ec; ring].
    + transitivity ((px p * px q + py p * py q + pz p * pz q) * py p
        + px p * (px p * py q - py p * px q) - pz p * (py p * pz q - pz p * py q)); [ring|rewrite Ea, Ec; ring].
    + transitivity ((px p * px q + py p * py q + pz p * pz q) * pz p
        - px p * (pz p * px q - px p * pz q) + py p * (py p * pz q - pz p * py q)); [ring|rewrite Ea, Eb; ring].
  - intros (c & Ex & Ey & Ez). unfold cross_sq. cbn [vx vy vz]. rewrite Ex, Ey, Ez.
    field. split; lra.
Qed.

Lemma c_zero l : l <> [] -> (forall q, In q l -> p_sq q <> 0) ->
  (c_textbook l = 0 <-> forall p q, In p l -> In q l -> parallel p q).
Proof.
  intros Hn H. pose proof (total_norm_pos l Hn H) as HT. unfold c_textbook.
  change (rsum (map (fun p => rsum (map (fun q => norm3 p * norm3 q * sin_sq p q) l)) l))
    with (rsum (map (fun p => rsum (map (cterm p) l)) l)).
  set (D := rsum (map (fun p => rsum (map (cterm p) l)) l)).
  assert (T2 : 0 < total_norm l * total_norm l) by (apply Rmult_lt_0_compat; exact HT).
  assert (ED : 3 / 2 * D / (total_norm l * total_norm l) = 0 <-> D = 0).
  { split; intros E; [|rewrite E; field; lra].
    apply (Rmult_eq_reg_r (3 / 2 * / (total_norm l * total_norm l))).
    - rewrite Rmult_0_l. rewrite <- E. field. lra.
    - apply Rgt_not_eq, Rmult_lt_0_compat; [lra|apply Rinv_0_lt_compat, T2]. }
  rewrite ED. unfold D. rewrite rsum_zero.
  - split.
    + intros E p q Hp Hq. specialize (E p Hp). cbn beta in E. apply cterm_parallel; auto.
      rewrite rsum_zero in E; [apply E; exact Hq|]. intros; apply cterm_nonneg; auto.
    + intros E p Hp. apply rsum_zero; [intros; apply cterm_nonneg; auto|]. intros q Hq. apply cterm_parallel; auto.
  - intros p Hp. apply rsum_map_nonneg. intros; apply cterm_nonneg; auto.
Qed.

Lemma rsum2_perm {A} (f : A -> A -> R) l k : Permutation l k ->
  rsum (map (fun p => rsum (map (f p) l)) l) = rsum (map (fun p => rsum (map (f p) k)) k).
Proof.
  intros P. rewrite (rsum_perm _ _ (Permutation_map (fun p => rsum (map (f p) l)) P)).
  apply rsum_map_ext. intros p _. apply rsum_perm, Permutation_map, P.
Qed.
Lemma c_perm l k : Permutation l k -> c_textbook l = c_textbook k.
Proof.
  intros P. unfold c_textbook, total_norm. rewrite (rsum2_perm _ _ _ P).
  rewrite (rsum_perm _ _ (Permutation_map norm3 P)). reflexivity.
Qed.
