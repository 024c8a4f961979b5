(** C86 - C89, C102: rotations and splittings (transform.py). *)
From Verif Require Import Prelude Keys SpecReal SpecShapes SpecTransform SpecPart RealBase Kinem Shapes Partition PartProofs Transform.
From Coq Require Import Permutation.
Open Scope R_scope.

(** ** Vector algebra *)
Lemma vec_eq a b c a' b' c' : a = a' -> b = b' -> c = c' -> Vec a b c = Vec a' b' c'. Proof. congruence. Qed.
Lemma sc1 a : sin a * sin a + cos a * cos a = 1. Proof. exact (sin2_cos2 a). Qed.
Lemma unit_axis_norm f t : vnorm_sq (unit_axis f t) = 1.
Proof.
  unfold vnorm_sq, unit_axis; cbn [vx vy vz]. pose proof (sc1 f). pose proof (sc1 t).
  replace (sin t * cos f * (sin t * cos f) + sin t * sin f * (sin t * sin f) + cos t * cos t) with
    (sin t * sin t * (sin f * sin f + cos f * cos f) + cos t * cos t) by ring. rewrite H. lra.
Qed.
(** Rodrigues' formula. *)
Definition rodrigues (a : R) (n v : vec) : vec :=
  vadd v (vadd (vscale (sin a) (vcross n v)) (vscale (1 - cos a) (vcross n (vcross n v)))).
Lemma rotation_rodrigues a ax v : mapply (rotation_matrix a ax) v = rodrigues a (unit_axis (phi_ ax) (theta_ ax)) v.
Proof.
  unfold rotation_matrix, t_angles_to_axis, angles_to_axis. fold (unit_axis (phi_ ax) (theta_ ax)).
  generalize (unit_axis (phi_ ax) (theta_ ax)). intros [x y z]. destruct v as [a1 a2 a3].
  set (s := sin a). set (c := cos a).
  unfold rodrigues. fold s c. cbv [mapply matadd smul matmul col vdot vadd vscale vcross vx vy vz row0 row1 row2]. apply vec_eq; ring.
Qed.
Lemma triple n v : vnorm_sq n = 1 -> vcross n (vcross n v) = vadd (vscale (vdot n v) n) (vscale (-1) v).
Proof.
  destruct n as [x y z], v as [a b c]. unfold vnorm_sq, vcross, vadd, vscale, vdot; cbn [vx vy vz]. intros H.
  apply vec_eq.
  - replace (y * (x * b - y * a) - z * (z * a - x * c)) with (x * (x * a + y * b + z * c) - (x * x + y * y + z * z) * a) by ring. rewrite H. ring.
  - replace (z * (y * c - z * b) - x * (x * b - y * a)) with (y * (x * a + y * b + z * c) - (x * x + y * y + z * z) * b) by ring. rewrite H. ring.
  - replace (x * (z * a - x * c) - y * (y * c - z * b)) with (z * (x * a + y * b + z * c) - (x * x + y * y + z * z) * c) by ring. rewrite H. ring.
Qed.
Lemma rodrigues_alt a n v : vnorm_sq n = 1 ->
  rodrigues a n v = vadd (vscale (cos a) v) (vadd (vscale (sin a) (vcross n v)) (vscale ((1 - cos a) * vdot n v) n)).
Proof.
  intros H. unfold rodrigues. rewrite (triple n v H). unfold vadd, vscale; cbn [vx vy vz]. apply vec_eq; ring.
Qed.

(** ** C86 rotation_matrix *)
Theorem C86_rotation : forall a ax, rotates (mapply (rotation_matrix a ax)) a (unit_axis (phi_ ax) (theta_ ax)).
Proof.
  intros a ax. pose proof (unit_axis_norm (phi_ ax) (theta_ ax)) as HN. set (n := unit_axis _ _) in *. unfold rotates. split; [|split].
  - intros c. rewrite rotation_rodrigues. fold n. unfold rodrigues. destruct n as [x y z]. unfold vadd, vscale, vcross; cbn [vx vy vz]. apply vec_eq; ring.
  - intros v Hv. rewrite rotation_rodrigues. fold n. rewrite rodrigues_alt by exact HN. rewrite Hv. unfold vadd, vscale; cbn [vx vy vz]. apply vec_eq; ring.
  - intros u v. rewrite !rotation_rodrigues. fold n. unfold rodrigues, vadd, vscale, vcross; cbn [vx vy vz]. apply vec_eq; ring.
Qed.
Lemma rodrigues_isometry a n u v : vnorm_sq n = 1 -> vdot (rodrigues a n u) (rodrigues a n v) = vdot u v.
Proof.
  intros H. rewrite !rodrigues_alt by exact H. pose proof (sc1 a) as S. set (s := sin a) in *. set (c := cos a) in *.
  destruct n as [x y z], u as [u1 u2 u3], v as [v1 v2 v3]. unfold vnorm_sq, vdot, vadd, vscale, vcross in *; cbn [vx vy vz] in *.
  set (nu := x * u1 + y * u2 + z * u3). set (nv := x * v1 + y * v2 + z * v3).
  match goal with |- ?L = ?R => replace L with (c * c * (u1 * v1 + u2 * v2 + u3 * v3) + s * s * ((x * x + y * y + z * z) * (u1 * v1 + u2 * v2 + u3 * v3) - nu * nv)
     + (1 - c) * nu * (1 - c) * nv * (x * x + y * y + z * z) + 2 * c * (1 - c) * nu * nv) by (unfold nu, nv; ring) end.
  rewrite H. replace (s * s) with (1 - c * c) by lra. ring.
Qed.
(** Orthogonal, determinant one. *)
Theorem C86_proper : forall a ax,
  (forall u v, vdot (mapply (rotation_matrix a ax) u) (mapply (rotation_matrix a ax) v) = vdot u v) /\
  det3 (rotation_matrix a ax) = 1.
Proof.
  intros a ax. pose proof (unit_axis_norm (phi_ ax) (theta_ ax)) as HN. split.
  - intros u v. rewrite !rotation_rodrigues. apply rodrigues_isometry, HN.
  - unfold rotation_matrix, t_angles_to_axis, angles_to_axis. fold (unit_axis (phi_ ax) (theta_ ax)).
    destruct (unit_axis (phi_ ax) (theta_ ax)) as [x y z]. pose proof (sc1 a) as S. set (s := sin a) in *. set (c := cos a) in *.
    unfold vnorm_sq in HN; cbn [vx vy vz] in HN.
    cbv [det3 mapply matadd smul matmul col vdot vadd vscale vcross vx vy vz row0 row1 row2].
    set (N := x * x + y * y + z * z) in *.
    match goal with |- ?L = _ => replace L with (1 - 2 * (1 - c) * N + s * s * N + (1 - c) * (1 - c) * N * N) by (unfold N; ring) end.
    rewrite HN. replace (s * s) with (1 - c * c) by lra. ring.
Qed.
(** Angles add up; no turn is the identity; the opposite turn is the inverse. *)
Theorem C86_group : forall ax a b v,
  mapply (rotation_matrix a ax) (mapply (rotation_matrix b ax) v) = mapply (rotation_matrix (a + b) ax) v /\
  mapply (rotation_matrix 0 ax) v = v /\
  mapply (rotation_matrix (- a) ax) (mapply (rotation_matrix a ax) v) = v.
Proof.
  assert (C : forall ax a b v, mapply (rotation_matrix a ax) (mapply (rotation_matrix b ax) v) = mapply (rotation_matrix (a + b) ax) v).
  { intros ax a b v. rewrite !rotation_rodrigues. pose proof (unit_axis_norm (phi_ ax) (theta_ ax)) as HN. set (n := unit_axis _ _) in *.
    rewrite !rodrigues_alt by exact HN.
    assert (D : vdot n (vadd (vscale (cos b) v) (vadd (vscale (sin b) (vcross n v)) (vscale ((1 - cos b) * vdot n v) n))) = vdot n v).
    { destruct n as [x y z], v as [v1 v2 v3]. unfold vnorm_sq, vdot, vadd, vscale, vcross in *; cbn [vx vy vz] in *.
      set (N := x * v1 + y * v2 + z * v3). match goal with |- ?L = _ => replace L with (cos b * N + (1 - cos b) * N * (x * x + y * y + z * z)) by (unfold N; ring) end. rewrite HN. ring. }
    rewrite D. assert (X : vcross n (vadd (vscale (cos b) v) (vadd (vscale (sin b) (vcross n v)) (vscale ((1 - cos b) * vdot n v) n))) =
      vadd (vscale (cos b) (vcross n v)) (vscale (sin b) (vcross n (vcross n v)))).
    { destruct n as [x y z], v as [v1 v2 v3]. unfold vdot, vadd, vscale, vcross; cbn [vx vy vz]. apply vec_eq; ring. }
    rewrite X, (triple n v HN), cos_plus, sin_plus. unfold vadd, vscale; cbn [vx vy vz]. generalize (vcross n v); intros [w1 w2 w3]. cbn [vx vy vz].
    apply vec_eq; ring. }
  assert (I : forall ax v, mapply (rotation_matrix 0 ax) v = v).
  { intros ax v. rewrite rotation_rodrigues. unfold rodrigues. rewrite sin_0, cos_0. destruct v as [v1 v2 v3]; unfold vadd, vscale; cbn [vx vy vz]. apply vec_eq; ring. }
  intros ax a b v. split; [apply C|]. split; [apply I|]. rewrite C. replace (- a + a) with 0 by ring. apply I.
Qed.
(** A quarter turn about z takes x to y. *)
Example C86_demo : mapply (rotation_matrix (PI / 2) (Angles 0 0)) (Vec 1 0 0) = Vec 0 1 0.
Proof.
  rewrite rotation_rodrigues. unfold rodrigues, unit_axis; cbn [phi_ theta_]. rewrite sin_PI2, cos_PI2, sin_0, cos_0.
  unfold vadd, vscale, vcross; cbn [vx vy vz]. apply vec_eq; ring.
Qed.

(** ** C87 split_momentum *)
Lemma mom_ext p q : px p = px q -> py p = py q -> pz p = pz q -> en p = en q -> p = q.
Proof. destruct p, q; cbn; intros; subst; reflexivity. Qed.
Lemma split_first p z a ax : exists c1 c2, split_momentum [p] z a ax = Ok [c1; c2] /\ vec_of c1 = mapply (rotation_matrix a ax) (vscale z (vec_of p)).
Proof.
  cbn [split_momentum]. eexists _, _. split; [reflexivity|]. set (v := mapply _ _).
  transitivity v; [unfold vec_of; cbn [px py pz]; clearbody v; destruct v as [v1 v2 v3]; reflexivity|].
  unfold v. f_equal. unfold vec_of, vscale; cbn [px py pz vx vy vz]. apply vec_eq; ring.
Qed.
Theorem C87_split : forall p z a ax, exists c1 c2, split_momentum [p] z a ax = Ok [c1; c2] /\
  madd c1 c2 = p /\
  en c1 = z * en p /\
  (exists f, rotates f a (unit_axis (phi_ ax) (theta_ ax)) /\ vec_of c1 = f (vscale z (vec_of p))) /\
  norm3 c1 = Rabs z * norm3 p.
Proof.
  intros p z a ax. cbn [split_momentum]. eexists _, _. split; [reflexivity|].
  split; [unfold madd; apply mom_ext; cbn [px py pz en]; ring|]. cbn [en].
  split; [ring|].
  set (v := mapply _ _). assert (E : v = mapply (rotation_matrix a ax) (vscale z (vec_of p))).
  { unfold v. f_equal. unfold vec_of, vscale; cbn [px py pz vx vy vz]. apply vec_eq; ring. }
  split.
  - exists (mapply (rotation_matrix a ax)). split; [apply C86_rotation|]. rewrite <- E. clear E. clearbody v. destruct v as [v1 v2 v3]; reflexivity.
  - unfold norm3, p_sq; cbn [px py pz]. change (vx v * vx v + vy v * vy v + vz v * vz v) with (vdot v v).
    rewrite E, (proj1 (C86_proper a ax)). unfold vdot, vscale, vec_of; cbn [vx vy vz].
    replace (z * px p * (z * px p) + z * py p * (z * py p) + z * pz p * (z * pz p)) with (Rsqr z * (px p * px p + py p * py p + pz p * pz p)) by (unfold Rsqr; ring).
    rewrite sqrt_mult; [|apply Rle_0_sqr | pose proof (Rle_0_sqr (px p)); pose proof (Rle_0_sqr (py p)); pose proof (Rle_0_sqr (pz p)); unfold Rsqr in *; lra].
    rewrite sqrt_Rsqr_abs. reflexivity.
Qed.
(** The angle between the first child and the parent is the requested one when the axis is
    perpendicular to the parent: the cosine is that of the angle. *)
Theorem C87_angle : forall p z a ax c1 c2, split_momentum [p] z a ax = Ok [c1; c2] ->
  vdot (unit_axis (phi_ ax) (theta_ ax)) (vec_of p) = 0 -> dot3 c1 p = z * cos a * p_sq p.
Proof.
  intros p z a ax c1 c2 E H. destruct (split_first p z a ax) as (d1 & d2 & E' & V). rewrite E in E'. injection E' as <- <-.
  destruct (C86_rotation a ax) as (_ & HR & _). rewrite HR in V.
  - replace (dot3 c1 p) with (vdot (vec_of c1) (vec_of p)) by reflexivity. rewrite V. unfold vec_of, vadd, vscale, vcross, p_sq, vdot; cbn [px py pz vx vy vz]. ring.
  - unfold vdot, vscale in *; cbn [vx vy vz]. set (n := unit_axis _ _) in *. unfold vec_of in *; cbn [px py pz vx vy vz] in *.
    replace (vx n * (z * px p) + vy n * (z * py p) + vz n * (z * pz p)) with (z * (vx n * px p + vy n * py p + vz n * pz p)) by ring. rewrite H. ring.
Qed.
Theorem C87_errors : forall l z a ax,
  ((1 < length l)%nat -> split_momentum l z a ax = Err ValueError) /\ (l = [] -> split_momentum l z a ax = Err IndexError).
Proof. intros [|p [|q l]] z a ax; cbn; split; intros H; try reflexivity; try lia; discriminate. Qed.
(** A split at angle zero is collinear. *)
Theorem C87_collinear : forall p z ax, split_momentum [p] z 0 ax =
  Ok [Mom (z * px p) (z * py p) (z * pz p) (z * en p); Mom ((1 - z) * px p) ((1 - z) * py p) ((1 - z) * pz p) ((1 - z) * en p)].
Proof.
  intros p z ax. cbn [split_momentum]. rewrite (proj1 (proj2 (C86_group ax 0 0 _))). unfold vec_of; cbn [px py pz vx vy vz en].
  f_equal. f_equal; [|f_equal]; apply mom_ext; cbn [px py pz en]; ring.
Qed.

(** ** C88 split_hardest *)
Lemma rltb_wo : weak_order rltb.
Proof.
  unfold weak_order, rltb. split; [|split].
  - intros x. destruct (Rlt_dec x x); [lra|reflexivity].
  - intros x y z. destruct (Rlt_dec x y), (Rlt_dec y z), (Rlt_dec x z); intros; try discriminate; try reflexivity; lra.
  - intros x y z. destruct (Rlt_dec x y), (Rlt_dec y z), (Rlt_dec x z); intros; try discriminate; auto; lra.
Qed.
Lemma rltb_wo' : weak_order (fun a b => rltb b a).
Proof.
  destruct rltb_wo as (A & B & C). split; [|split]; [exact A| |].
  - intros x y z H1 H2. eapply B; eassumption.
  - intros x y z H. destruct (C _ y _ H); auto.
Qed.
Lemma pt_le p q : pt p <= pt q <-> pt_sq p <= pt_sq q.
Proof.
  unfold pt, pt_sq. split; intros H.
  - apply Rsqr_incr_1 in H; [|apply sqrt_pos|apply sqrt_pos]. rewrite !Rsqr_sqrt in H by apply sumsq_pos. exact H.
  - apply sqrt_le_1; [apply sumsq_pos|apply sumsq_pos|exact H].
Qed.
Lemma pt_lt p q : pt p < pt q <-> pt_sq p < pt_sq q.
Proof. pose proof (pt_le q p). split; intros; apply Rnot_le_lt; intros C; apply H in C; lra. Qed.
Lemma rltb_false a b : rltb a b = false <-> b <= a.
Proof. unfold rltb. destruct (Rlt_dec a b); split; intros; try reflexivity; try discriminate; lra. Qed.
Lemma rltb_true a b : rltb a b = true <-> a < b.
Proof. unfold rltb. destruct (Rlt_dec a b); split; intros; try reflexivity; try discriminate; lra. Qed.
Lemma pt_argmax_spec l : l <> [] -> exists i, pt_argmax l = Ok i /\ first_hardest l i.
Proof.
  intros H. destruct (argmin_spec (fun a b => rltb b a) rltb_wo' (map pt l)) as (i & y & E & Hy & HM).
  { intros C. apply H. destruct l; [reflexivity|discriminate]. }
  exists i. split; [exact E|]. rewrite nth_error_map' in Hy. destruct (nth_error l i) as [p|] eqn:Ep; [|discriminate]. injection Hy as <-.
  exists p. split; [exact Ep|]. split; intros j q.
  - intros Hq. apply pt_le, rltb_false. apply (HM j). rewrite nth_error_map', Hq. reflexivity.
  - intros L Hq. apply pt_lt, rltb_true. refine (proj2 (HM j _ _) L). rewrite nth_error_map', Hq. reflexivity.
Qed.
Lemma pt_argmin_spec l : l <> [] -> exists i, pt_argmin l = Ok i /\ first_softest l i.
Proof.
  intros H. destruct (argmin_spec rltb rltb_wo (map pt l)) as (i & y & E & Hy & HM).
  { intros C. apply H. destruct l; [reflexivity|discriminate]. }
  exists i. split; [exact E|]. rewrite nth_error_map' in Hy. destruct (nth_error l i) as [p|] eqn:Ep; [|discriminate]. injection Hy as <-.
  exists p. split; [exact Ep|]. split; intros j q.
  - intros Hq. apply pt_le, rltb_false. apply (HM j). rewrite nth_error_map', Hq. reflexivity.
  - intros L Hq. apply pt_lt, rltb_true. refine (proj2 (HM j _ _) L). rewrite nth_error_map', Hq. reflexivity.
Qed.
Lemma nth_split_at {A} (l : list A) i x : nth_error l i = Some x -> l = firstn i l ++ x :: skipn (S i) l.
Proof. revert i. induction l as [|y l IH]; intros [|i] H; try discriminate; cbn in *; [injection H as ->; reflexivity|]. f_equal. apply IH, H. Qed.

(** Everything about a successful call: which particle goes, what replaces it, where, and the total. *)
Theorem C88_split_hardest : forall l z a ax, l <> [] -> 0 < z <= 1 / 2 ->
  exists i hard c1 c2, first_hardest l i /\ nth_error l i = Some hard /\
    split_momentum [hard] z a ax = Ok [c1; c2] /\
    split_hardest l z a (Some ax) = Ok (firstn i l ++ skipn (S i) l ++ [c1; c2]) /\
    length (firstn i l ++ skipn (S i) l ++ [c1; c2]) = S (length l) /\
    msum (firstn i l ++ skipn (S i) l ++ [c1; c2]) = msum l.
Proof.
  intros l z a ax Hl Hz. destruct (pt_argmax_spec l Hl) as (i & Ei & HF). pose proof HF as (hard & Hh & _).
  destruct (C87_split hard z a ax) as (c1 & c2 & Es & Hs & _). exists i, hard, c1, c2. split; [exact HF|]. split; [exact Hh|]. split; [exact Es|].
  split; [|split].
  - unfold split_hardest. destruct (Rlt_dec 0 z); [|lra]. destruct (Rle_dec z (1 / 2)); [|lra]. cbn [bind]. rewrite Ei. cbn [bind].
    rewrite (proj2 (get_ok l i hard) Hh). cbn [bind]. rewrite Es. reflexivity.
  - assert (i < length l)%nat by (apply nth_error_Some; congruence).
    rewrite !app_length, firstn_length, skipn_length. cbn [length]. lia.
  - rewrite (nth_split_at l i hard Hh) at 3. rewrite !msum_app. cbn [msum]. rewrite <- Hs.
    unfold madd, mzero; apply mom_ext; cbn [px py pz en]; ring.
Qed.
(** Without an axis and with two or more particles, the axis is that of [soft_hard_axis]. *)
Theorem C88_default_axis : forall l z a, 0 < z <= 1 / 2 -> (2 <= length l)%nat ->
  exists ax, soft_hard_axis l = Ok ax /\ split_hardest l z a None = split_hardest l z a (Some ax).
Proof.
  intros l z a Hz HL. assert (Hl : l <> []) by (intros ->; cbn in HL; lia).
  destruct (pt_argmax_spec l Hl) as (j & Ej & h & Hh & _). destruct (pt_argmin_spec l Hl) as (i & Ei & s & Hs & _).
  assert (exists ax, soft_hard_axis l = Ok ax) as (ax & E).
  { unfold soft_hard_axis. rewrite Ei. cbn [bind]. rewrite (proj2 (get_ok l i s) Hs). cbn [bind]. rewrite Ej. cbn [bind].
    rewrite (proj2 (get_ok l j h) Hh). eexists. reflexivity. }
  exists ax. split; [exact E|]. unfold split_hardest. destruct (Rlt_dec 0 z); [|lra]. destruct (Rle_dec z (1 / 2)); [|lra].
  rewrite (proj2 (Nat.ltb_ge _ _) HL), E. reflexivity.
Qed.
Theorem C88_errors : forall l z a ax,
  (~ (0 < z <= 1 / 2) -> split_hardest l z a ax = Err ValueError) /\
  (ax = None -> (length l < 2)%nat -> split_hardest l z a ax = Err ValueError) /\
  (l = [] -> split_hardest l z a ax = Err ValueError).
Proof.
  intros l z a ax. split; [|split].
  - intros H. unfold split_hardest. destruct (Rlt_dec 0 z); [destruct (Rle_dec z (1 / 2)); [lra|]|]; reflexivity.
  - intros -> H. unfold split_hardest. rewrite (proj2 (Nat.ltb_lt _ _) H). destruct (Rlt_dec 0 z); [destruct (Rle_dec z (1 / 2))|]; reflexivity.
  - intros ->. unfold split_hardest. destruct (Rlt_dec 0 z); [destruct (Rle_dec z (1 / 2))|]; [|reflexivity|reflexivity]. destruct ax; reflexivity.
Qed.
Example C88_demo : first_hardest [Mom 1 0 0 1; Mom 0 2 0 2; Mom 2 0 1 3] 1 /\ 0 < 1 / 4 <= 1 / 2.
Proof.
  split; [|lra]. exists (Mom 0 2 0 2). split; [reflexivity|]. split; intros [|[|[|[|j]]]] q; cbn [nth_error]; intros; try lia; try discriminate;
    match goal with H : Some _ = Some q |- _ => injection H as <- end; unfold pt_sq; cbn [px py]; lra.
Qed.

(** ** C89 soft_hard_axis *)
Definition shcross (s h : mom) : vec := vcross (vec_of s) (vec_of h).
Lemma soft_hard_value l i j s h : first_softest l i -> nth_error l i = Some s -> first_hardest l j -> nth_error l j = Some h ->
  soft_hard_axis l = Ok (axis_to_angles (shcross s h)).
Proof.
  intros HS Hs HH Hh.
  assert (l <> []) as Hl by (intros ->; destruct i; discriminate).
  destruct (pt_argmax_spec l Hl) as (j' & Ej & h' & Hh' & A1 & A2). destruct (pt_argmin_spec l Hl) as (i' & Ei & s' & Hs' & B1 & B2).
  destruct HS as (s0 & Hs0 & S1 & S2). destruct HH as (h0 & Hh0 & T1 & T2). rewrite Hs0 in Hs. injection Hs as ->. rewrite Hh0 in Hh. injection Hh as ->.
  assert (i' = i). { destruct (Nat.lt_trichotomy i' i) as [L|[L|L]]; [|exact L|]; [specialize (S2 _ _ L Hs'); specialize (B1 _ _ Hs0) | specialize (B2 _ _ L Hs0); specialize (S1 _ _ Hs')]; lra. }
  assert (j' = j). { destruct (Nat.lt_trichotomy j' j) as [L|[L|L]]; [|exact L|]; [specialize (T2 _ _ L Hh'); specialize (A1 _ _ Hh0) | specialize (A2 _ _ L Hh0); specialize (T1 _ _ Hh')]; lra. }
  subst. unfold soft_hard_axis. rewrite Ei. cbn [bind]. rewrite (proj2 (get_ok _ _ _) Hs0). cbn [bind]. rewrite Ej. cbn [bind].
  rewrite (proj2 (get_ok _ _ _) Hh0). reflexivity.
Qed.
Lemma axis_to_angles_spec v : let a := axis_to_angles v in let r := sqrt (vnorm_sq v) in
  vx v = r * (cos (theta_ a) * cos (phi_ a)) /\ vy v = r * (cos (theta_ a) * sin (phi_ a)) /\ vz v = r * sin (theta_ a) /\
  - (PI / 2) <= theta_ a <= PI / 2.
Proof.
  cbv zeta. unfold axis_to_angles; cbn [theta_ phi_]. set (q := sqrt (vx v * vx v + vy v * vy v)).
  destruct (atan2_spec (vy v) (vx v)) as (_ & Ex & Ey). fold q in Ex, Ey.
  destruct (atan2_spec (vz v) q) as (Bt & Eq & Ez).
  assert (Q : q * q = vx v * vx v + vy v * vy v) by (apply sqr_sqrt, sumsq_pos).
  replace (sqrt (q * q + vz v * vz v)) with (sqrt (vnorm_sq v)) in Eq, Ez by (unfold vnorm_sq; rewrite Q; reflexivity).
  set (t := atan2 (vz v) q) in *. set (f := atan2 (vy v) (vx v)) in *. set (r := sqrt (vnorm_sq v)) in *.
  split; [rewrite Ex, Eq at 1; ring|]. split; [rewrite Ey, Eq at 1; ring|]. split; [exact Ez|].
  assert (0 <= q) by apply sqrt_pos. assert (0 <= r) by apply sqrt_pos.
  destruct (Req_dec r 0) as [Z|NZ].
  - assert (t = 0); [|pose proof PI_RGT_0; lra]. rewrite Z in Eq, Ez. unfold t. rewrite Ez, Eq, !Rmult_0_l. unfold atan2.
    destruct (Rlt_dec 0 0) as [C|_]; [lra|]. destruct (Rlt_dec 0 0) as [C|_]; [lra|]. reflexivity.
  - assert (0 <= cos t) by (apply Rmult_le_reg_l with r; lra).
    split; apply Rnot_lt_le; intros C.
    + assert (cos t < 0); [|lra]. rewrite <- cos_neg. apply cos_lt_0; lra.
    + assert (cos t < 0); [|lra]. apply cos_lt_0; lra.
Qed.
(** Two particles in the transverse plane: the normal is the z axis, the function answers x. *)
Theorem C89_normal_refuted : exists s h ax, first_softest [s; h] 0 /\ first_hardest [s; h] 1 /\
  soft_hard_axis [s; h] = Ok ax /\ vcross (vec_of s) (vec_of h) = Vec 0 0 2 /\
  unit_axis (phi_ ax) (theta_ ax) = Vec 1 0 0 /\
  ~ vparallel (unit_axis (phi_ ax) (theta_ ax)) (vcross (vec_of s) (vec_of h)).
Proof.
  set (s := Mom 1 0 0 1). set (h := Mom 0 2 0 2).
  assert (S : first_softest [s; h] 0). { exists s. split; [reflexivity|]. split; intros [|[|[|j]]] q; cbn [nth_error]; intros; try lia; try discriminate;
    match goal with H : Some _ = Some q |- _ => injection H as <- end; unfold pt_sq, s, h; cbn [px py]; lra. }
  assert (H : first_hardest [s; h] 1). { exists h. split; [reflexivity|]. split; intros [|[|[|j]]] q; cbn [nth_error]; intros; try lia; try discriminate;
    match goal with H : Some _ = Some q |- _ => injection H as <- end; unfold pt_sq, s, h; cbn [px py]; lra. }
  assert (X : vcross (vec_of s) (vec_of h) = Vec 0 0 2) by (unfold vcross, vec_of, s, h; cbn [px py pz vx vy vz]; apply vec_eq; ring).
  exists s, h, (axis_to_angles (shcross s h)). split; [exact S|]. split; [exact H|].
  split; [apply (soft_hard_value _ 0%nat 1%nat s h S eq_refl H eq_refl)|]. split; [exact X|].
  assert (U : unit_axis (phi_ (axis_to_angles (shcross s h))) (theta_ (axis_to_angles (shcross s h))) = Vec 1 0 0).
  { unfold shcross. rewrite X. unfold axis_to_angles; cbn [vx vy vz theta_ phi_].
    replace (0 * 0 + 0 * 0) with 0 by ring. rewrite sqrt_0.
    assert (E1 : atan2 0 0 = 0). { unfold atan2. destruct (Rlt_dec 0 0) as [C|_]; [lra|]. destruct (Rlt_dec 0 0) as [C|_]; [lra|]. reflexivity. }
    assert (E2 : atan2 2 0 = PI / 2). { unfold atan2. destruct (Rlt_dec 0 0); [lra|]. destruct (Rlt_dec 0 2); lra. }
    rewrite E1, E2. unfold unit_axis. rewrite sin_PI2, cos_PI2, sin_0, cos_0. apply vec_eq; ring. }
  split; [exact U|]. rewrite U, X. unfold vparallel, vcross; cbn [vx vy vz]. intros E. injection E. intros _ E1. lra.
Qed.
(** What it returns: the azimuth of the normal and its elevation above the transverse plane, so the
    normal is |s x h| times the unit vector at inclination pi/2 minus the returned angle ... *)
Theorem C89_elevation_partial : forall l i j s h, first_softest l i -> nth_error l i = Some s ->
  first_hardest l j -> nth_error l j = Some h ->
  exists ax, soft_hard_axis l = Ok ax /\
    vcross (vec_of s) (vec_of h) = vscale (sqrt (vnorm_sq (vcross (vec_of s) (vec_of h)))) (unit_axis (phi_ ax) (PI / 2 - theta_ ax)) /\
    - (PI / 2) <= theta_ ax <= PI / 2.
Proof.
  intros l i j s h HS Hs HH Hh. exists (axis_to_angles (shcross s h)). split; [eapply soft_hard_value; eassumption|].
  destruct (axis_to_angles_spec (shcross s h)) as (A & B & C & D). split; [|exact D]. fold (shcross s h).
  unfold unit_axis. rewrite sin_shift, cos_shift. set (v := shcross s h) in *. set (r := sqrt (vnorm_sq v)) in *.
  transitivity (Vec (vx v) (vy v) (vz v)); [destruct v; reflexivity|]. unfold vscale; cbn [vx vy vz]. apply vec_eq; assumption.
Qed.
(** ... and used as an axis it lies along the normal only when the returned angle is pi/4 or (with the
    opposite sign) -pi/4: every other soft-hard plane gets the wrong axis. *)
Theorem C89_only_pi4_partial : forall l i j s h ax, first_softest l i -> nth_error l i = Some s ->
  first_hardest l j -> nth_error l j = Some h -> soft_hard_axis l = Ok ax ->
  vcross (vec_of s) (vec_of h) <> Vec 0 0 0 ->
  (vparallel (unit_axis (phi_ ax) (theta_ ax)) (vcross (vec_of s) (vec_of h)) <-> theta_ ax = PI / 4 \/ theta_ ax = - (PI / 4)).
Proof.
  intros l i j s h ax HS Hs HH Hh E NZ. destruct (C89_elevation_partial l i j s h HS Hs HH Hh) as (ax' & E' & HV & HB).
  rewrite E in E'. injection E' as <-. set (v := vcross (vec_of s) (vec_of h)) in *. set (r := sqrt (vnorm_sq v)) in *.
  assert (HR : r <> 0). { intros Z. apply NZ. rewrite HV, Z. unfold vscale. cbn [vx vy vz]. apply vec_eq; ring. }
  rewrite HV. set (t := theta_ ax) in *. set (f := phi_ ax) in *. clearbody r. clear HV.
  unfold vparallel, unit_axis, vscale, vcross; cbn [vx vy vz]. rewrite sin_shift, cos_shift.
  assert (P : forall u, u * (r * (sin t * sin t - cos t * cos t)) = 0 <-> u * cos (2 * t) = 0).
  { intros u. rewrite cos_2a. split; intros H.
    - replace (u * (r * (sin t * sin t - cos t * cos t))) with (r * - (u * (cos t * cos t - sin t * sin t))) in H by ring. apply Rmult_integral in H. destruct H; [contradiction|lra].
    - replace (u * (r * (sin t * sin t - cos t * cos t))) with (- r * (u * (cos t * cos t - sin t * sin t))) by ring. rewrite H. ring. }
  assert (Q : cos (2 * t) = 0 <-> t = PI / 4 \/ t = - (PI / 4)).
  { pose proof PI_RGT_0. split.
    - intros C. destruct (Rle_dec 0 t) as [G|G].
      + left. destruct (Rlt_le_dec t (PI / 4)) as [L|L]; [exfalso; assert (0 < cos (2 * t)) by (apply cos_gt_0; lra); lra|].
        destruct (Rlt_le_dec (PI / 4) t) as [L'|L']; [exfalso; assert (cos (2 * t) < 0) by (apply cos_lt_0; lra); lra|]. lra.
      + right. rewrite <- cos_neg in C. destruct (Rlt_le_dec (- t) (PI / 4)) as [L|L]; [exfalso; assert (0 < cos (- (2 * t))) by (apply cos_gt_0; lra); lra|].
        destruct (Rlt_le_dec (PI / 4) (- t)) as [L'|L']; [exfalso; assert (cos (- (2 * t)) < 0) by (apply cos_lt_0; lra); lra|]. lra.
    - intros [-> | ->]; [replace (2 * (PI / 4)) with (PI / 2) by field; apply cos_PI2 | replace (2 * - (PI / 4)) with (- (PI / 2)) by field; rewrite cos_neg; apply cos_PI2]. }
  rewrite <- Q. split.
  - intros H. injection H as H1 H2 H3.
    assert (sin f * (r * (sin t * sin t - cos t * cos t)) = 0) as K1 by (rewrite <- H1; ring).
    assert (cos f * (r * (sin t * sin t - cos t * cos t)) = 0) as K2 by (replace 0 with (-0) by ring; rewrite <- H2; ring).
    apply P in K1. apply P in K2. pose proof (sc1 f) as N.
    replace (cos (2 * t)) with ((sin f * sin f + cos f * cos f) * cos (2 * t)) by (rewrite N; ring).
    replace ((sin f * sin f + cos f * cos f) * cos (2 * t)) with (sin f * (sin f * cos (2 * t)) + cos f * (cos f * cos (2 * t))) by ring. rewrite K1, K2. ring.
  - intros H. pose proof (proj2 (P 1)) as K. rewrite H in K. specialize (K ltac:(ring)). rewrite Rmult_1_l in K.
    apply vec_eq.
    + transitivity (sin f * (r * (sin t * sin t - cos t * cos t))); [ring|rewrite K; ring].
    + transitivity (- cos f * (r * (sin t * sin t - cos t * cos t))); [ring|rewrite K; ring].
    + ring.
Qed.

(** ** C102 are the children physical? *)
(** A massless parent turned by a quarter about an axis perpendicular to it: the second child is
    spacelike. *)
Theorem C102_physical_refuted : exists p z a ax c1 c2, split_momentum [p] z a ax = Ok [c1; c2] /\
  mink p p = 0 /\ 0 < en p /\ 0 < z <= 1 / 2 /\ mink c2 c2 < 0.
Proof.
  exists (Mom 1 0 0 1), (1 / 2), (PI / 2), (Angles 0 0). eexists _, _. split; [cbn [split_momentum]; reflexivity|].
  rewrite !rotation_rodrigues. unfold rodrigues, unit_axis, vec_of; cbn [phi_ theta_ px py pz en]. rewrite sin_PI2, cos_PI2, sin_0, cos_0.
  cbv [vadd vscale vcross vx vy vz mink px py pz en]. lra.
Qed.
(** Invariant masses of the children, for every parent: the first keeps z^2 M^2, the second has
    (1-z)^2 M^2 minus 2 z (|p|^2 - p.R p), which is 2 z |p|^2 (1 - cos a) when the axis is
    perpendicular to the parent. *)
Theorem C102_masses_partial : forall p z a ax c1 c2, split_momentum [p] z a ax = Ok [c1; c2] ->
  mink c1 c1 = z * z * mink p p /\
  mink c2 c2 = (1 - z) * (1 - z) * mink p p - 2 * (z * p_sq p - dot3 c1 p) /\
  (0 <= z -> dot3 c1 p <= z * p_sq p) /\
  (vdot (unit_axis (phi_ ax) (theta_ ax)) (vec_of p) = 0 -> mink c2 c2 = (1 - z) * (1 - z) * mink p p - 2 * z * p_sq p * (1 - cos a)).
Proof.
  intros p z a ax c1 c2 E. destruct (C87_split p z a ax) as (d1 & d2 & E' & HS & HE & _ & HN). rewrite E in E'. injection E' as <- <-.
  assert (N : p_sq c1 = z * z * p_sq p).
  { assert (forall q, 0 <= p_sq q) as PP by (intros q; unfold p_sq; pose proof (Rle_0_sqr (px q)); pose proof (Rle_0_sqr (py q)); pose proof (Rle_0_sqr (pz q)); unfold Rsqr in *; lra).
    apply (f_equal (fun x => x * x)) in HN. unfold norm3 in HN. rewrite sqr_sqrt in HN by apply PP.
    rewrite HN. replace (Rabs z * sqrt (p_sq p) * (Rabs z * sqrt (p_sq p))) with (Rabs z * Rabs z * (sqrt (p_sq p) * sqrt (p_sq p))) by ring.
    rewrite sqr_sqrt by apply PP. rewrite <- Rabs_mult. rewrite Rabs_pos_eq; [ring|]. apply (Rle_0_sqr z). }
  assert (M1 : mink c1 c1 = z * z * mink p p).
  { unfold mink. rewrite HE. unfold p_sq in N. lra. }
  assert (M2 : mink c2 c2 = (1 - z) * (1 - z) * mink p p - 2 * (z * p_sq p - dot3 c1 p)).
  { assert (E2 : c2 = Mom (px p - px c1) (py p - py c1) (pz p - pz c1) (en p - en c1)). { rewrite <- HS. unfold madd. apply mom_ext; cbn [px py pz en]; ring. }
    rewrite E2. unfold mink, dot3, p_sq in *; cbn [px py pz en]. rewrite HE.
    set (X := px c1 * px p + py c1 * py p + pz c1 * pz p).
    replace ((en p - z * en p) * (en p - z * en p) - (px p - px c1) * (px p - px c1) - (py p - py c1) * (py p - py c1) - (pz p - pz c1) * (pz p - pz c1))
      with ((1 - z) * (1 - z) * (en p * en p) - (px p * px p + py p * py p + pz p * pz p) - (px c1 * px c1 + py c1 * py c1 + pz c1 * pz c1) + 2 * X) by (unfold X; ring).
    rewrite N. ring. }
  split; [exact M1|]. split; [exact M2|]. split.
  - intros Hz. assert (0 <= p_sq p) as PP by (unfold p_sq; pose proof (Rle_0_sqr (px p)); pose proof (Rle_0_sqr (py p)); pose proof (Rle_0_sqr (pz p)); unfold Rsqr in *; lra).
    assert (CS : dot3 c1 p * dot3 c1 p <= p_sq c1 * p_sq p).
    { unfold dot3, p_sq. pose proof (Rle_0_sqr (px c1 * py p - py c1 * px p)). pose proof (Rle_0_sqr (px c1 * pz p - pz c1 * px p)). pose proof (Rle_0_sqr (py c1 * pz p - pz c1 * py p)).
      unfold Rsqr in *. lra. }
    rewrite N in CS. apply Rnot_lt_le. intros C. assert (0 <= z * p_sq p) by (apply Rmult_le_pos; assumption).
    assert (z * p_sq p * (z * p_sq p) < dot3 c1 p * dot3 c1 p) by (apply Rmult_le_0_lt_compat; lra). lra.
  - intros HP. rewrite M2, (C87_angle p z a ax c1 c2 E HP). ring.
Qed.
(** So from a massless parent, every split with 0 < z and a visible opening angle about a
    perpendicular axis has a spacelike second child. *)
Theorem C102_always_partial : forall p z a ax c1 c2, split_momentum [p] z a ax = Ok [c1; c2] ->
  mink p p = 0 -> 0 < p_sq p -> 0 < z -> cos a < 1 -> vdot (unit_axis (phi_ ax) (theta_ ax)) (vec_of p) = 0 -> mink c2 c2 < 0.
Proof.
  intros p z a ax c1 c2 E M P Z C H. destruct (C102_masses_partial p z a ax c1 c2 E) as (_ & _ & _ & F). rewrite (F H), M.
  assert (0 < 2 * z * p_sq p * (1 - cos a)) by (repeat apply Rmult_lt_0_compat; lra). lra.
Qed.

Print Assumptions C86_rotation.
Print Assumptions C86_proper.
Print Assumptions C86_group.
Print Assumptions C87_split.
Print Assumptions C87_angle.
Print Assumptions C87_errors.
Print Assumptions C87_collinear.
Print Assumptions C88_split_hardest.
Print Assumptions C88_default_axis.
Print Assumptions C88_errors.
Print Assumptions C89_normal_refuted.
Print Assumptions C89_elevation_partial.
Print Assumptions C89_only_pi4_partial.
Print Assumptions C102_physical_refuted.
Print Assumptions C102_masses_partial.
Print Assumptions C102_always_partial.
