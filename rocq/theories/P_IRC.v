(** C157, C158: event shapes under collinear splitting, soft emission, rotation and rescaling.  Exact arithmetic. *)
From Verif Require Import Prelude SpecReal RealBase Kinem KinemProofs SpecShapes Shapes ShapesProofs P_Shapes P_Kinem.
Open Scope R_scope.

(** [q]'s three-momentum is [c] times [p]'s; the energies are free. *)
Definition times3 (c : R) (p q : mom) : Prop := px q = c * px p /\ py q = c * py p /\ pz q = c * pz p.

Lemma three_norm_scale s x y z : 0 < s -> three_norm (s * x) (s * y) (s * z) = (n <- three_norm x y z ;; Ok (s * n)).
Proof.
  intros Hs. destruct (Req_dec (x * x + y * y + z * z) 0) as [E|E].
  - assert (x = 0 /\ y = 0 /\ z = 0) as (-> & -> & ->) by (repeat split; nra). rewrite !Rmult_0_r, three_norm_zero. reflexivity.
  - rewrite three_norm_ok, (three_norm_ok x y z E).
    + cbn [bind]. f_equal. replace (s * x * (s * x) + s * y * (s * y) + s * z * (s * z)) with ((s * s) * (x * x + y * y + z * z)) by ring.
      rewrite sqrt_mult by nra. rewrite sqrt_square by lra. reflexivity.
    + intros H. apply E. assert (s * s * (x * x + y * y + z * z) = 0) by (rewrite <- H; ring). apply Rmult_integral in H0 as [H0|H0]; [nra|exact H0].
Qed.
Lemma foldM_app {A B} (f : A -> B -> res A) l1 l2 s : foldM f (l1 ++ l2) s = (s' <- foldM f l1 s ;; foldM f l2 s').
Proof. revert s. induction l1 as [|x l1 IH]; intros s; cbn; [reflexivity|]. destruct (f s x); cbn; [apply IH|reflexivity]. Qed.
Lemma copysign_scale s x : 0 < s -> copysign 1 (s * x) = copysign 1 x.
Proof. intros Hs. unfold copysign. destruct (Rlt_dec (s * x) 0), (Rlt_dec x 0); try reflexivity; exfalso; nra. Qed.

Section Split.
Variables (p q r : mom) (s : R).
Hypotheses (Hs : 0 < s < 1) (Hq : times3 s p q) (Hr : times3 (1 - s) p r).

Lemma thrust_scaled c p' (Hc : 0 < c) (H : times3 c p p') a i acc : thrust_step a i acc p' =
  (t <- thrust_step a i (TAcc 0 0 0 0) p ;; Ok (TAcc (th_abs acc + c * th_abs t) (th_phi acc + c * th_phi t) (th_theta acc + c * th_theta t) (th_norm acc + c * th_norm t))).
Proof.
  destruct H as (X & Y & Z). unfold thrust_step. cbv zeta. rewrite X, Y, Z, three_norm_scale by exact Hc. destruct (three_norm (px p) (py p) (pz p)) as [n|e]; cbn [bind]; [|reflexivity].
  cbn [th_abs th_phi th_theta th_norm].
  replace (sin i * cos a * (c * px p) + sin i * sin a * (c * py p) + cos i * (c * pz p)) with (c * (sin i * cos a * px p + sin i * sin a * py p + cos i * pz p)) by ring.
  rewrite copysign_scale by exact Hc. rewrite Rabs_mult, (Rabs_pos_eq c) by lra. f_equal. f_equal; ring.
Qed.
Lemma thrust_split a i acc : foldM (thrust_step a i) [q; r] acc = thrust_step a i acc p.
Proof.
  cbn [foldM]. assert (H1 : times3 1 p p) by (unfold times3; rewrite !Rmult_1_l; auto). rewrite (thrust_scaled s q (proj1 Hs) Hq a i acc), (thrust_scaled 1 p Rlt_0_1 H1 a i acc).
  destruct (thrust_step a i (TAcc 0 0 0 0) p) as [t|e] eqn:E; cbn [bind]; [|reflexivity]. assert (H2 : 0 < 1 - s) by lra. rewrite (thrust_scaled (1 - s) r H2 Hr a i), E. cbn [bind th_abs th_phi th_theta th_norm].
  f_equal. f_equal; ring.
Qed.
Lemma sph_scaled c p' (Hc : 0 < c) (H : times3 c p p') a i acc : spherocity_step a i acc p' =
  (t <- spherocity_step a i (SAcc 0 0 0 0) p ;; Ok (SAcc (sp_cross acc + c * sp_cross t) (sp_norm acc + c * sp_norm t) (sp_theta acc + c * sp_theta t) (sp_phi acc + c * sp_phi t))).
Proof.
  destruct H as (X & Y & Z). unfold spherocity_step. cbv zeta. rewrite X, Y, Z, three_norm_scale by exact Hc. destruct (three_norm (px p) (py p) (pz p)) as [n|e]; cbn [bind]; [|reflexivity].
  replace (c * py p * cos i - c * pz p * (sin i * sin a)) with (c * (py p * cos i - pz p * (sin i * sin a))) by ring.
  replace (c * pz p * (sin i * cos a) - c * px p * cos i) with (c * (pz p * (sin i * cos a) - px p * cos i)) by ring.
  replace (c * px p * (sin i * sin a) - c * py p * (sin i * cos a)) with (c * (px p * (sin i * sin a) - py p * (sin i * cos a))) by ring.
  rewrite three_norm_scale by exact Hc. destruct (three_norm _ _ _) as [m|e] eqn:Em; cbn [bind]; [|reflexivity].
  destruct (Req_dec m 0) as [->|M].
  - unfold fdiv. rewrite Rmult_0_r. destruct (Req_EM_T 0 0); [reflexivity|contradiction].
  - rewrite !fdiv_ok by (try apply Rmult_integral_contrapositive_currified; lra). cbn [bind sp_cross sp_norm sp_theta sp_phi]. f_equal. f_equal; field; lra.
Qed.
Lemma sph_split a i acc : foldM (spherocity_step a i) [q; r] acc = spherocity_step a i acc p.
Proof.
  cbn [foldM]. assert (H1 : times3 1 p p) by (unfold times3; rewrite !Rmult_1_l; auto). rewrite (sph_scaled s q (proj1 Hs) Hq a i acc), (sph_scaled 1 p Rlt_0_1 H1 a i acc).
  destruct (spherocity_step a i (SAcc 0 0 0 0) p) as [t|e] eqn:E; cbn [bind]; [|reflexivity]. assert (H2 : 0 < 1 - s) by lra. rewrite (sph_scaled (1 - s) r H2 Hr a i), E. cbn [bind sp_cross sp_norm sp_theta sp_phi].
  f_equal. f_equal; ring.
Qed.
Lemma split_fold {A} (f : A -> mom -> res A) l1 l2 a : (forall acc, foldM f [q; r] acc = f acc p) -> foldM f (l1 ++ q :: r :: l2) a = foldM f (l1 ++ p :: l2) a.
Proof.
  intros H. rewrite !foldM_app. destruct (foldM f l1 a) as [a'|e]; cbn [bind]; [|reflexivity]. change (q :: r :: l2) with ([q; r] ++ l2). rewrite foldM_app, H. cbn [foldM]. reflexivity.
Qed.
Lemma p_sq_scaled c p' : times3 c p p' -> p_sq p' = c * c * p_sq p.
Proof. intros (X & Y & Z). unfold p_sq. rewrite X, Y, Z. ring. Qed.
Lemma norm3_scaled c p' : 0 < c -> times3 c p p' -> norm3 p' = c * norm3 p.
Proof. intros Hc H. unfold norm3. rewrite (p_sq_scaled c p' H), sqrt_mult by (pose proof (p_sq_nonneg p); nra). rewrite sqrt_square by lra. reflexivity. Qed.
End Split.

(** One pair's contribution to the C-parameter, homogeneous in each momentum. *)
Definition pair_term (p q : mom) : R := norm3 p * norm3 q * sin_sq p q.
Lemma sin_sq_scaled c p q p' : 0 < c -> p_sq p <> 0 -> times3 c p p' -> sin_sq p' q = sin_sq p q.
Proof.
  intros Hc H0 H. unfold sin_sq. rewrite (norm3_scaled p c p' Hc H). assert (D : dot3 p' q = c * dot3 p q) by (destruct H as (X & Y & Z); unfold dot3; rewrite X, Y, Z; ring).
  rewrite D. pose proof (norm3_pos p H0). destruct (Req_dec (norm3 q) 0) as [E|E].
  - rewrite E, !Rmult_0_r. unfold Rdiv. rewrite Rinv_0, !Rmult_0_r. reflexivity.
  - replace (c * dot3 p q / (c * norm3 p * norm3 q)) with (dot3 p q / (norm3 p * norm3 q)) by (field; lra). reflexivity.
Qed.
Lemma sin_sq_sym p q : sin_sq p q = sin_sq q p.
Proof. unfold sin_sq. rewrite (Rmult_comm (norm3 p)). replace (dot3 p q) with (dot3 q p) by (unfold dot3; ring). reflexivity. Qed.
Lemma pair_term_scaled c p q p' : 0 < c -> p_sq p <> 0 -> times3 c p p' -> pair_term p' q = c * pair_term p q.
Proof. intros Hc H0 H. unfold pair_term. rewrite (sin_sq_scaled c p q p' Hc H0 H), (norm3_scaled p c p' Hc H). ring. Qed.
Lemma pair_term_sym p q : pair_term p q = pair_term q p.
Proof. unfold pair_term. rewrite sin_sq_sym. ring. Qed.

Lemma c_split p q r s l1 l2 : 0 < s < 1 -> times3 s p q -> times3 (1 - s) p r -> p_sq p <> 0 -> c_textbook (l1 ++ q :: r :: l2) = c_textbook (l1 ++ p :: l2).
Proof.
  intros Hs Hq Hr H0. assert (Hs' : 0 < 1 - s) by lra. unfold c_textbook.
  assert (N : total_norm (l1 ++ q :: r :: l2) = total_norm (l1 ++ p :: l2)).
  { unfold total_norm. rewrite !map_app, !rsum_app. cbn [map rsum]. rewrite (norm3_scaled p s q (proj1 Hs) Hq), (norm3_scaled p (1 - s) r Hs' Hr). ring. }
  rewrite N. f_equal. f_equal.
  assert (I : forall t, rsum (map (fun u => norm3 t * norm3 u * sin_sq t u) (l1 ++ q :: r :: l2)) = rsum (map (fun u => norm3 t * norm3 u * sin_sq t u) (l1 ++ p :: l2))).
  { intros t. rewrite !map_app, !rsum_app. cbn [map rsum]. fold (pair_term t q) (pair_term t r) (pair_term t p). rewrite (pair_term_sym t q), (pair_term_sym t r), (pair_term_sym t p).
    rewrite (pair_term_scaled s p t q (proj1 Hs) H0 Hq), (pair_term_scaled (1 - s) p t r Hs' H0 Hr). ring. }
  rewrite (rsum_map_ext _ _ (l1 ++ q :: r :: l2) (fun t _ => I t)). rewrite !map_app, !rsum_app. cbn [map rsum].
  assert (E : forall c t, 0 < c -> times3 c p t -> rsum (map (fun u => norm3 t * norm3 u * sin_sq t u) (l1 ++ p :: l2)) = c * rsum (map (fun u => norm3 p * norm3 u * sin_sq p u) (l1 ++ p :: l2))).
  { intros c t Hc Ht. rewrite <- rsum_map_scal. apply rsum_map_ext. intros u _. apply (pair_term_scaled c p u t Hc H0 Ht). }
  rewrite (E s q (proj1 Hs) Hq), (E (1 - s) r Hs' Hr). ring.
Qed.
Lemma some_zero (l : list mom) : (exists p, In p l /\ p_sq p = 0) \/ (forall p, In p l -> p_sq p <> 0).
Proof.
  induction l as [|p l [IH|IH]]; [right; intros p []| |].
  - destruct IH as (q & Hq & E). left. exists q. split; [right; exact Hq|exact E].
  - destruct (Req_dec (p_sq p) 0) as [E|E]; [left; exists p; split; [left; reflexivity|exact E] | right; intros q [<-|H]; auto].
Qed.

(** Collinear safety: replacing a particle by two fragments along its direction (any energies) changes no event shape: not the
    C-parameter, nor the objective and gradient handed to the optimiser by thrust and spherocity, at any axis, errors included. *)
Theorem C157_collinear : forall l1 l2 p q r s, 0 < s < 1 -> times3 s p q -> times3 (1 - s) p r ->
  c_parameter (l1 ++ q :: r :: l2) = c_parameter (l1 ++ p :: l2) /\
  (forall a i, thrust_with_grad a i (l1 ++ q :: r :: l2) = thrust_with_grad a i (l1 ++ p :: l2)) /\
  (forall a i, spherocity_with_grad a i (l1 ++ q :: r :: l2) = spherocity_with_grad a i (l1 ++ p :: l2)) /\
  (forall best, thrust best (l1 ++ q :: r :: l2) = thrust best (l1 ++ p :: l2) /\ spherocity best (l1 ++ q :: r :: l2) = spherocity best (l1 ++ p :: l2)).
Proof.
  intros l1 l2 p q r s Hs Hq Hr.
  assert (T : forall a i, thrust_with_grad a i (l1 ++ q :: r :: l2) = thrust_with_grad a i (l1 ++ p :: l2)).
  { intros a i. unfold thrust_with_grad. rewrite (split_fold p q r); [reflexivity|]. intros acc. apply (thrust_split p q r s Hs Hq Hr). }
  assert (S : forall a i, spherocity_with_grad a i (l1 ++ q :: r :: l2) = spherocity_with_grad a i (l1 ++ p :: l2)).
  { intros a i. unfold spherocity_with_grad. rewrite (split_fold p q r); [reflexivity|]. intros acc. apply (sph_split p q r s Hs Hq Hr). }
  split; [|split; [exact T|split; [exact S|intros best; unfold thrust, spherocity; rewrite T, S; auto]]].
  destruct C70_errors as (_ & CE). destruct (some_zero (l1 ++ p :: l2)) as [(z & Hz & E)|NZ].
  - rewrite (CE _ z Hz E). apply in_app_iff in Hz as [Hz|[<-|Hz]].
    + apply (CE _ z); [apply in_app_iff; auto|exact E].
    + apply (CE _ q); [apply in_app_iff; right; left; reflexivity|]. rewrite (p_sq_scaled p s q Hq), E. ring.
    + apply (CE _ z); [apply in_app_iff; right; right; right; exact Hz|exact E].
  - assert (H0 : p_sq p <> 0) by (apply NZ, in_app_iff; right; left; reflexivity).
    assert (NZ' : forall z, In z (l1 ++ q :: r :: l2) -> p_sq z <> 0).
    { assert (SC : forall c t, 0 < c -> times3 c p t -> p_sq t <> 0) by (intros c t Hc Ht; rewrite (p_sq_scaled p c t Ht); intros Ez; apply Rmult_integral in Ez as [Ez|Ez]; [nra|contradiction]).
      intros z Hz. apply in_app_iff in Hz as [Hz|[<-|[<-|Hz]]]; [apply NZ, in_app_iff; auto | apply (SC s q); [apply Hs|exact Hq] | apply (SC (1 - s) r); [lra|exact Hr] | apply NZ, in_app_iff; right; right; exact Hz]. }
    assert (NN : forall (x : mom) y, l1 ++ x :: y <> []) by (intros x y; destruct l1; discriminate).
    rewrite (proj1 (C70_c_parameter _ (NN q (r :: l2)) NZ')), (proj1 (C70_c_parameter _ (NN p l2) NZ)), (c_split p q r s l1 l2 Hs Hq Hr H0). reflexivity.
Qed.
Print Assumptions C157_collinear.

(** ** Soft emission *)
Lemma ratio_shift A N x k : 0 < N -> 0 <= A <= N -> 0 <= k -> 0 <= x <= k -> Rabs ((A + x) / (N + k) - A / N) <= k / N.
Proof.
  intros HN HA Hk Hx. replace ((A + x) / (N + k) - A / N) with ((x * N - A * k) / (N * (N + k))) by (field; lra).
  assert (P : 0 < N * (N + k)) by (apply Rmult_lt_0_compat; lra).
  assert (B1 : - (k * (N + k)) <= x * N - A * k) by (assert (0 <= x * N) by (apply Rmult_le_pos; lra); assert (A * k <= N * k) by (apply Rmult_le_compat_r; lra); assert (0 <= k * k) by (apply Rmult_le_pos; lra); lra).
  assert (B2 : x * N - A * k <= k * (N + k)) by (assert (x * N <= k * N) by (apply Rmult_le_compat_r; lra); assert (0 <= A * k) by (apply Rmult_le_pos; lra); assert (0 <= k * k) by (apply Rmult_le_pos; lra); lra).
  replace (k / N) with ((k * (N + k)) / (N * (N + k))) by (field; lra). unfold Rdiv. rewrite Rabs_mult, (Rabs_pos_eq (/ _)) by (apply Rlt_le, Rinv_0_lt_compat, P).
  apply Rmult_le_compat_r; [apply Rlt_le, Rinv_0_lt_compat, P|]. apply Rabs_le. lra.
Qed.
Lemma div_le_1 a b : 0 < b -> a <= b -> a / b <= 1.
Proof. intros Hb H. apply (Rmult_le_reg_r b); [exact Hb|]. unfold Rdiv. rewrite Rmult_assoc, Rinv_l by lra. lra. Qed.
Lemma rsum_insert (f : mom -> R) l1 k l2 : rsum (map f (l1 ++ k :: l2)) = rsum (map f (l1 ++ l2)) + f k.
Proof. rewrite !map_app, !rsum_app. cbn [map rsum]. ring. Qed.
Lemma in_insert {A} (l1 l2 : list A) k p : In p (l1 ++ l2) -> In p (l1 ++ k :: l2).
Proof. rewrite !in_app_iff. cbn. tauto. Qed.
Lemma thrust_soft l1 l2 k n : l1 ++ l2 <> [] -> (forall p, In p (l1 ++ k :: l2) -> p_sq p <> 0) -> vnorm_sq n = 1 ->
  Rabs (thrust_along (l1 ++ k :: l2) n - thrust_along (l1 ++ l2) n) <= norm3 k / total_norm (l1 ++ l2).
Proof.
  intros Hn H Hu. assert (HT : 0 < total_norm (l1 ++ l2)) by (apply total_norm_pos; [exact Hn|]; intros p Hp; apply H, in_insert, Hp).
  unfold thrust_along. unfold total_norm at 1. rewrite !rsum_insert. fold (total_norm (l1 ++ l2)). apply ratio_shift; [exact HT| |apply norm3_nonneg|split; [apply Rabs_pos|apply along_le, Hu]].
  split; [apply rsum_map_nonneg; intros; apply Rabs_pos | apply rsum_map_le; intros; apply along_le, Hu].
Qed.
Lemma sph_soft l1 l2 k n : l1 ++ l2 <> [] -> (forall p, In p (l1 ++ k :: l2) -> p_sq p <> 0) -> vnorm_sq n = 1 ->
  Rabs (spherocity_along (l1 ++ k :: l2) n - spherocity_along (l1 ++ l2) n) <= 2 * (4 / PI) * (4 / PI) * (norm3 k / total_norm (l1 ++ l2)).
Proof.
  intros Hn H Hu. assert (HT : 0 < total_norm (l1 ++ l2)) by (apply total_norm_pos; [exact Hn|]; intros p Hp; apply H, in_insert, Hp).
  unfold spherocity_along. cbv zeta. unfold total_norm at 1 2. rewrite !rsum_insert. fold (total_norm (l1 ++ l2)).
  assert (B : 0 <= rsum (map (fun p => sqrt (cross_sq p n)) (l1 ++ l2)) <= total_norm (l1 ++ l2)) by (split; [apply rsum_map_nonneg; intros; apply sqrt_pos | apply rsum_map_le; intros; apply cross_le, Hu]).
  pose proof (ratio_shift _ _ (sqrt (cross_sq k n)) (norm3 k) HT B (norm3_nonneg k) (Logic.conj (sqrt_pos _) (cross_le k n Hu))) as D.
  set (A := rsum _) in *. set (N := total_norm _) in *. set (x := sqrt _) in *. pose proof (norm3_nonneg k) as Hk. assert (Hx : 0 <= x <= norm3 k) by (split; [apply sqrt_pos|apply cross_le, Hu]).
  set (c := 4 / PI). assert (Hc : 0 < c) by (unfold c; pose proof PI_RGT_0; apply Rdiv_lt_0_compat; lra).
  assert (U : 0 <= A / N <= 1) by (split; [apply Rmult_le_pos; [lra|apply Rlt_le, Rinv_0_lt_compat, HT] | apply div_le_1; lra]).
  assert (V : 0 <= (A + x) / (N + norm3 k) <= 1) by (split; [apply Rmult_le_pos; [lra|apply Rlt_le, Rinv_0_lt_compat; lra] | apply div_le_1; lra]).
  set (u := A / N) in *. set (v := (A + x) / (N + norm3 k)) in *. set (d := norm3 k / N) in *. clearbody u v d c.
  replace (c * v * (c * v) - c * u * (c * u)) with (c * c * ((v - u) * (v + u))) by ring. rewrite Rabs_mult, (Rabs_pos_eq (c * c)) by nra. rewrite Rabs_mult, (Rabs_pos_eq (v + u)) by lra.
  replace (2 * c * c * d) with (c * c * (d * 2)) by ring. apply Rmult_le_compat_l; [nra|]. apply Rmult_le_compat; try lra. apply Rabs_pos.
Qed.
Lemma sin_sq_bounds p q : p_sq p <> 0 -> p_sq q <> 0 -> 0 <= sin_sq p q <= 1.
Proof.
  intros Hp Hq. unfold sin_sq. cbv zeta. assert (P := norm3_pos p Hp). assert (Q := norm3_pos q Hq). set (c := dot3 p q / (norm3 p * norm3 q)).
  assert (E : c * (norm3 p * norm3 q) = dot3 p q) by (unfold c; field; lra).
  assert (L : dot3 p q * dot3 p q <= p_sq p * p_sq q).
  { assert (dot3 p q * dot3 p q + ((py p * pz q - pz p * py q) * (py p * pz q - pz p * py q) + (pz p * px q - px p * pz q) * (pz p * px q - px p * pz q) + (px p * py q - py p * px q) * (px p * py q - py p * px q)) = p_sq p * p_sq q) by (unfold dot3, p_sq; ring).
    pose proof (Rle_0_sqr (py p * pz q - pz p * py q)). pose proof (Rle_0_sqr (pz p * px q - px p * pz q)). pose proof (Rle_0_sqr (px p * py q - py p * px q)). unfold Rsqr in *. lra. }
  rewrite <- E, <- (norm3_sq p), <- (norm3_sq q) in L. pose proof (Rle_0_sqr c) as C0. unfold Rsqr in C0. split; [|lra].
  assert (W : 0 < norm3 p * norm3 q) by (apply Rmult_lt_0_compat; assumption). set (w := norm3 p * norm3 q) in *. replace (norm3 p * norm3 p * (norm3 q * norm3 q)) with (w * w) in L by (unfold w; ring).
  assert (c * c * (w * w) <= 1 * (w * w)) by lra. assert (0 < w * w) by (apply Rmult_lt_0_compat; exact W). apply Rmult_le_reg_r in H; lra.
Qed.
Lemma pair_term_self p : p_sq p <> 0 -> pair_term p p = 0.
Proof.
  intros H. unfold pair_term, sin_sq. cbv zeta. assert (P := norm3_pos p H). replace (dot3 p p) with (p_sq p) by (unfold dot3, p_sq; ring). rewrite <- norm3_sq. field. lra.
Qed.
Lemma soft_c_bound S N X k : 0 < N -> 0 <= k -> 0 <= S -> 3 / 2 * S / (N * N) <= 1 -> 0 <= X <= k * N ->
  Rabs (3 / 2 * (S + 2 * X) / ((N + k) * (N + k)) - 3 / 2 * S / (N * N)) <= 3 * (k / N).
Proof.
  intros HN Hk HS HC HX. set (C := 3 / 2 * S / (N * N)) in *. set (t := k / N). assert (Ek : k = t * N) by (unfold t; field; lra). assert (Ht : 0 <= t) by (apply Rmult_le_pos; [exact Hk|apply Rlt_le, Rinv_0_lt_compat, HN]).
  set (Y := X / (N * N)). assert (NN : 0 < N * N) by (apply Rmult_lt_0_compat; lra). assert (HY : 0 <= Y <= t).
  { split; [apply Rmult_le_pos; [lra|apply Rlt_le, Rinv_0_lt_compat, NN]|]. apply (Rmult_le_reg_r (N * N)); [exact NN|]. unfold Y. replace (X / (N * N) * (N * N)) with X by (field; lra). rewrite Ek in HX. lra. }
  assert (HC0 : 0 <= C) by (unfold C; apply Rmult_le_pos; [lra|apply Rlt_le, Rinv_0_lt_compat, NN]).
  replace (3 / 2 * (S + 2 * X) / ((N + k) * (N + k))) with ((C + 3 * Y) / ((1 + t) * (1 + t))) by (unfold C, Y; rewrite Ek; field; split; lra).
  clearbody C t Y. clear - HC HC0 HY Ht. assert (P : 1 <= (1 + t) * (1 + t)) by nra. set (w := / ((1 + t) * (1 + t))).
  assert (W : 0 < w <= 1) by (unfold w; split; [apply Rinv_0_lt_compat; lra | rewrite <- Rinv_1; apply Rinv_le_contravar; lra]). assert (W2 : 1 - 2 * t <= w).
  { apply (Rmult_le_reg_r ((1 + t) * (1 + t))); [lra|]. unfold w. rewrite Rinv_l by lra. nra. }
  unfold Rdiv. fold w. apply Rabs_le. split.
  - assert (0 <= Y * w) by (apply Rmult_le_pos; lra). assert (C * (1 - w) <= 1 * (1 - w)) by (apply Rmult_le_compat_r; lra). lra.
  - assert (C * w <= C * 1) by (apply Rmult_le_compat_l; lra). assert (Y * w <= Y * 1) by (apply Rmult_le_compat_l; lra). lra.
Qed.
Lemma c_soft l1 l2 k : l1 ++ l2 <> [] -> (forall p, In p (l1 ++ k :: l2) -> p_sq p <> 0) ->
  Rabs (c_textbook (l1 ++ k :: l2) - c_textbook (l1 ++ l2)) <= 3 * (norm3 k / total_norm (l1 ++ l2)).
Proof.
  intros Hn H. assert (H' : forall p, In p (l1 ++ l2) -> p_sq p <> 0) by (intros p Hp; apply H, in_insert, Hp). assert (HT := total_norm_pos _ Hn H').
  destruct (C70_c_parameter (l1 ++ l2) Hn H') as (_ & (_ & B) & _). unfold c_textbook in B |- *. assert (Hk : p_sq k <> 0) by (apply H, in_app_iff; right; left; reflexivity).
  assert (NK : total_norm (l1 ++ k :: l2) = total_norm (l1 ++ l2) + norm3 k) by apply rsum_insert. rewrite NK.
  set (S := rsum (map (fun p => rsum (map (fun q => norm3 p * norm3 q * sin_sq p q) (l1 ++ l2))) (l1 ++ l2))) in *.
  set (X := rsum (map (fun q => pair_term k q) (l1 ++ l2))).
  assert (E : rsum (map (fun p => rsum (map (fun q => norm3 p * norm3 q * sin_sq p q) (l1 ++ k :: l2))) (l1 ++ k :: l2)) = S + 2 * X).
  { rewrite (rsum_insert (fun p => rsum (map (fun q => norm3 p * norm3 q * sin_sq p q) (l1 ++ k :: l2)))).
    rewrite (rsum_map_ext (fun p => rsum (map (fun q => norm3 p * norm3 q * sin_sq p q) (l1 ++ k :: l2))) (fun p => rsum (map (fun q => norm3 p * norm3 q * sin_sq p q) (l1 ++ l2)) + pair_term k p))
      by (intros p _; rewrite (rsum_insert (fun q => norm3 p * norm3 q * sin_sq p q)); f_equal; apply (pair_term_sym p k)).
    rewrite (rsum_map_plus (fun p => rsum (map (fun q => norm3 p * norm3 q * sin_sq p q) (l1 ++ l2))) (fun q => pair_term k q)). fold S. fold X. rewrite (rsum_insert (fun q => norm3 k * norm3 q * sin_sq k q)). change (norm3 k * norm3 k * sin_sq k k) with (pair_term k k). rewrite (pair_term_self k Hk).
    change (rsum (map (fun q => norm3 k * norm3 q * sin_sq k q) (l1 ++ l2))) with X. clearbody X S. ring. }
  rewrite E. apply soft_c_bound; [exact HT|apply norm3_nonneg| |exact B|].
  - unfold S. apply rsum_map_nonneg. intros p Hp. apply rsum_map_nonneg. intros q Hq. repeat apply Rmult_le_pos; try apply norm3_nonneg. apply sin_sq_bounds; auto.
  - unfold X. split.
    + apply rsum_map_nonneg. intros q Hq. unfold pair_term. repeat apply Rmult_le_pos; try apply norm3_nonneg. apply sin_sq_bounds; auto.
    + unfold total_norm. rewrite <- rsum_map_scal. apply rsum_map_le. intros q Hq. unfold pair_term. destruct (sin_sq_bounds k q Hk (H' q Hq)) as (A1 & A2). rewrite <- (Rmult_1_r (norm3 k * norm3 q)) at 2. apply Rmult_le_compat_l; [apply Rmult_le_pos; apply norm3_nonneg | exact A2].
Qed.

(** Infrared safety: adding a particle changes each event shape by at most a constant times its share |k| / sum|p|. *)
Theorem C157_soft : forall l1 l2 k, let l := l1 ++ l2 in let l' := l1 ++ k :: l2 in l <> [] -> (forall p, In p l' -> p_sq p <> 0) ->
  (exists c c', c_parameter l = Ok c /\ c_parameter l' = Ok c' /\ Rabs (c' - c) <= 3 * (norm3 k / total_norm l)) /\
  (forall a i, exists T T' g g', thrust_with_grad a i l = Ok (T, g) /\ thrust_with_grad a i l' = Ok (T', g') /\ Rabs (T' - T) <= norm3 k / total_norm l) /\
  (forall a i, (forall p, In p l' -> cross_sq p (unit_axis a i) <> 0) -> exists S S' g g', spherocity_with_grad a i l = Ok (S, g) /\ spherocity_with_grad a i l' = Ok (S', g') /\
     Rabs (S' - S) <= 2 * (4 / PI) * (4 / PI) * (norm3 k / total_norm l)).
Proof.
  intros l1 l2 k l l' Hn H. assert (H' : forall p, In p l -> p_sq p <> 0) by (intros p Hp; apply H, in_insert, Hp). assert (Hn' : l' <> []) by (unfold l'; destruct l1; discriminate).
  split; [|split].
  - exists (c_textbook l), (c_textbook l'). split; [exact (proj1 (C70_c_parameter l Hn H'))|]. split; [exact (proj1 (C70_c_parameter l' Hn' H))|]. apply c_soft; assumption.
  - intros a i. rewrite (thrust_value a i l Hn H'), (thrust_value a i l' Hn' H). eexists. eexists. eexists. eexists. split; [reflexivity|]. split; [reflexivity|].
    replace (- thrust_along l' (unit_axis a i) - - thrust_along l (unit_axis a i)) with (- (thrust_along l' (unit_axis a i) - thrust_along l (unit_axis a i))) by ring. rewrite Rabs_Ropp. apply thrust_soft; [exact Hn|exact H|apply unit_axis_norm].
  - intros a i HC. assert (HC' : forall p, In p l -> cross_sq p (unit_axis a i) <> 0) by (intros p Hp; apply HC, in_insert, Hp).
    pose proof (total_norm_pos l Hn H'). pose proof (total_norm_pos l' Hn' H).
    rewrite (sph_value a i l Hn HC'), (sph_value a i l' Hn' HC). rewrite !sph_alt by lra. eexists. eexists. eexists. eexists. split; [reflexivity|]. split; [reflexivity|]. apply sph_soft; [exact Hn|exact H|apply unit_axis_norm].
Qed.
Print Assumptions C157_soft.
Example C157_demo : times3 (1/4) (Mom 4 8 8 12) (Mom 1 2 2 3) /\ times3 (1 - 1/4) (Mom 4 8 8 12) (Mom 3 6 6 9) /\
  (forall p, In p ([Mom 1 2 2 3] ++ Mom 0 0 1 1 :: [Mom (-2) 1 2 3]) -> p_sq p <> 0).
Proof. split; [|split]; [unfold times3; cbn; lra .. |]. cbn. unfold p_sq. intros p [<-|[<-|[<-|[]]]]; cbn; lra. Qed.

(** ** Rotations, reflections and changes of unit *)
(** [f] and [g] undo each other and both keep all angles and lengths, up to the factors [c] and [1/c]. *)
Definition similar (c : R) (f g : mom -> mom) : Prop := 0 < c /\
  (forall p q, dot3 (f p) (f q) = c * c * dot3 p q) /\ (forall p q, dot3 (g p) (g q) = / (c * c) * dot3 p q) /\ (forall p, g (f p) = p) /\ (forall p, f (g p) = p).
Lemma similar_sym c f g : similar c f g -> similar (/ c) g f.
Proof. intros (Hc & F & G & A & B). split; [apply Rinv_0_lt_compat, Hc|]. split; [intros p q; rewrite G; f_equal; field; lra|]. split; [intros p q; rewrite F; f_equal; field; lra|]. auto. Qed.
Lemma norm3_dot p : norm3 p = sqrt (dot3 p p). Proof. reflexivity. Qed.
Lemma norm3_similar c f g p : similar c f g -> norm3 (f p) = c * norm3 p.
Proof. intros (Hc & F & _). rewrite !norm3_dot, F, sqrt_mult_alt by nra. rewrite sqrt_square by lra. reflexivity. Qed.
Lemma p_sq_similar c f g p : similar c f g -> p_sq p <> 0 -> p_sq (f p) <> 0.
Proof. intros (Hc & F & _) H. change (p_sq (f p)) with (dot3 (f p) (f p)). rewrite F. intros E. apply Rmult_integral in E as [E|E]; [nra|contradiction]. Qed.
Lemma total_similar c f g l : similar c f g -> total_norm (map f l) = c * total_norm l.
Proof. intros H. unfold total_norm. rewrite map_map, <- rsum_map_scal. apply rsum_map_ext. intros p _. eapply norm3_similar, H. Qed.
Lemma sin_similar c f g p q : similar c f g -> sin_sq (f p) (f q) = sin_sq p q.
Proof.
  intros H. unfold sin_sq. rewrite !(norm3_similar c f g) by exact H. destruct H as (Hc & F & _). rewrite F. cbv zeta.
  replace (c * c * dot3 p q / (c * norm3 p * (c * norm3 q))) with (dot3 p q / (norm3 p * norm3 q)); [reflexivity|].
  replace (c * norm3 p * (c * norm3 q)) with (c * c * (norm3 p * norm3 q)) by ring. destruct (Req_dec (norm3 p * norm3 q) 0) as [E|E].
  - rewrite E, Rmult_0_r. unfold Rdiv. rewrite Rinv_0, !Rmult_0_r. reflexivity.
  - set (w := norm3 p * norm3 q) in *. clearbody w. field. split; [exact E|lra].
Qed.
Lemma c_similar c f g l : similar c f g -> l <> [] -> (forall p, In p l -> p_sq p <> 0) -> c_textbook (map f l) = c_textbook l.
Proof.
  intros H Hn HZ. unfold c_textbook. rewrite (total_similar c f g l H). assert (HT := total_norm_pos l Hn HZ). rewrite map_map.
  rewrite (rsum_map_ext _ (fun p => c * c * rsum (map (fun q => norm3 p * norm3 q * sin_sq p q) l))).
  - rewrite rsum_map_scal. destruct H as (Hc & _). field. lra.
  - intros p _. rewrite map_map, <- rsum_map_scal. apply rsum_map_ext. intros q _. rewrite !(norm3_similar c f g), (sin_similar c f g) by exact H. ring.
Qed.
(** An axis seen as a momentum. *)
Definition as_mom (n : vec) : mom := Mom (vx n) (vy n) (vz n) 0.
Definition turned (c : R) (f : mom -> mom) (n : vec) : vec := let m := f (as_mom n) in Vec (px m / c) (py m / c) (pz m / c).
Lemma along_dot p n : along p n = dot3 p (as_mom n). Proof. reflexivity. Qed.
Lemma along_turned c f g p n : similar c f g -> along (f p) (turned c f n) = c * along p n.
Proof.
  intros (Hc & F & _). rewrite (along_dot p n). assert (E : c * along (f p) (turned c f n) = dot3 (f p) (f (as_mom n))) by (unfold along, turned, dot3; cbn [vx vy vz]; field; lra).
  rewrite F in E. apply (Rmult_eq_reg_l c); [|lra]. rewrite E. ring.
Qed.
Lemma unit_turned c f g n : similar c f g -> vnorm_sq n = 1 -> vnorm_sq (turned c f n) = 1.
Proof.
  intros (Hc & F & _) H. assert (E : c * c * vnorm_sq (turned c f n) = dot3 (f (as_mom n)) (f (as_mom n))) by (unfold vnorm_sq, turned, dot3; cbn [vx vy vz]; field; lra).
  rewrite F in E. change (dot3 (as_mom n) (as_mom n)) with (vnorm_sq n) in E. rewrite H in E. apply Rmult_eq_reg_l in E; [exact E|nra].
Qed.
Lemma thrust_turned c f g l n : similar c f g -> l <> [] -> (forall p, In p l -> p_sq p <> 0) -> thrust_along (map f l) (turned c f n) = thrust_along l n.
Proof.
  intros H Hn HZ. assert (HT := total_norm_pos l Hn HZ). unfold thrust_along. rewrite (total_similar c f g l H), map_map. rewrite (rsum_map_ext _ (fun p => c * Rabs (along p n))).
  - rewrite rsum_map_scal. destruct H as (Hc & _). field. lra.
  - intros p _. rewrite (along_turned c f g p n H), Rabs_mult, Rabs_pos_eq; [reflexivity|destruct H; lra].
Qed.
Lemma cross_turned c f g p n : similar c f g -> vnorm_sq n = 1 -> cross_sq (f p) (turned c f n) = c * c * cross_sq p n.
Proof.
  intros H Hu. pose proof (lagrange (f p) (turned c f n)) as L1. pose proof (lagrange p n) as L2. rewrite (along_turned c f g p n H), (unit_turned c f g n H Hu) in L1. rewrite Hu in L2.
  assert (E : p_sq (f p) = c * c * p_sq p) by (destruct H as (Hc & F & _); change (p_sq (f p)) with (dot3 (f p) (f p)); rewrite F; reflexivity). rewrite E in L1. nra.
Qed.
Lemma sph_turned c f g l n : similar c f g -> l <> [] -> (forall p, In p l -> p_sq p <> 0) -> vnorm_sq n = 1 -> spherocity_along (map f l) (turned c f n) = spherocity_along l n.
Proof.
  intros H Hn HZ Hu. assert (HT := total_norm_pos l Hn HZ). unfold spherocity_along. cbv zeta. rewrite (total_similar c f g l H), map_map. rewrite (rsum_map_ext _ (fun p => c * sqrt (cross_sq p n))).
  - rewrite rsum_map_scal. destruct H as (Hc & _). replace (c * rsum (map (fun x => sqrt (cross_sq x n)) l) / (c * total_norm l)) with (rsum (map (fun p => sqrt (cross_sq p n)) l) / total_norm l) by (field; lra). reflexivity.
  - intros p _. rewrite (cross_turned c f g p n H Hu), sqrt_mult_alt by (destruct H; nra). rewrite sqrt_square by (destruct H; lra). reflexivity.
Qed.
(** The shapes depend on angles and on momentum fractions only: turning, mirroring or rescaling the whole event leaves the
    C-parameter, the best thrust and the best spherocity unchanged. *)
Theorem C158_turned : forall c f g l, similar c f g -> l <> [] -> (forall p, In p l -> p_sq p <> 0) ->
  c_parameter (map f l) = c_parameter l /\
  (forall a i a' i' T n T' n', thrust (a, i) l = Ok (T, n) -> thrust (a', i') (map f l) = Ok (T', n') ->
     (forall m, vnorm_sq m = 1 -> thrust_along l m <= T) -> (forall m, vnorm_sq m = 1 -> thrust_along (map f l) m <= T') -> T' = T) /\
  (forall a i a' i' S n S' n', spherocity (a, i) l = Ok (S, n) -> spherocity (a', i') (map f l) = Ok (S', n') ->
     (forall m, vnorm_sq m = 1 -> S <= spherocity_along l m) -> (forall m, vnorm_sq m = 1 -> S' <= spherocity_along (map f l) m) -> S' = S).
Proof.
  intros c f g l H Hn HZ. assert (Hn' : map f l <> []) by (destruct l; [contradiction|discriminate]).
  assert (HZ' : forall p, In p (map f l) -> p_sq p <> 0) by (intros p Hp; apply in_map_iff in Hp as (q & <- & Hq); apply (p_sq_similar c f g q H), HZ, Hq).
  pose proof (similar_sym c f g H) as H2. assert (MM : map g (map f l) = l) by (rewrite map_map; transitivity (map (fun x => x) l); [apply map_ext, H | apply map_id]).
  split; [|split].
  - rewrite (proj1 (C70_c_parameter _ Hn' HZ')), (proj1 (C70_c_parameter _ Hn HZ)), (c_similar c f g l H Hn HZ). reflexivity.
  - intros a i a' i' T n T' n' ET ET' B B'. assert (T = thrust_along l (unit_axis a i)).
    { unfold thrust in ET. cbn [fst snd] in ET. rewrite (thrust_value a i l Hn HZ) in ET. cbn [bind fst snd] in ET. injection ET as <- _. ring. }
    assert (T' = thrust_along (map f l) (unit_axis a' i')).
    { unfold thrust in ET'. cbn [fst snd] in ET'. rewrite (thrust_value a' i' _ Hn' HZ') in ET'. cbn [bind fst snd] in ET'. injection ET' as <- _. ring. }
    apply Rle_antisym.
    + rewrite H1. rewrite <- (thrust_turned (/ c) g f (map f l) (unit_axis a' i') H2 Hn' HZ'), MM. apply B, (unit_turned (/ c) g f _ H2), unit_axis_norm.
    + rewrite H0. rewrite <- (thrust_turned c f g l (unit_axis a i) H Hn HZ). apply B', (unit_turned c f g _ H), unit_axis_norm.
  - intros a i a' i' T n T' n' ET ET' B B'.
    assert (SV : forall l a i T n, l <> [] -> (forall p, In p l -> p_sq p <> 0) -> spherocity (a, i) l = Ok (T, n) -> T = spherocity_along l (unit_axis a i)).
    { clear. intros l a i T n Hn HZ E. assert (HC : forall p, In p l -> cross_sq p (unit_axis a i) <> 0).
      { intros p Hp Z. unfold spherocity in E. cbn [fst snd] in E. rewrite (C73_parallel_axis_raises l a i p Hp Z) in E. discriminate. }
      unfold spherocity in E. cbn [fst snd] in E. rewrite (sph_value a i l Hn HC) in E. cbn [bind fst snd] in E. injection E as <- _. apply sph_alt. pose proof (total_norm_pos l Hn HZ). lra. }
    pose proof (SV _ _ _ _ _ Hn HZ ET) as H0. pose proof (SV _ _ _ _ _ Hn' HZ' ET') as H1. apply Rle_antisym.
    + rewrite H0. rewrite <- (sph_turned c f g l (unit_axis a i) H Hn HZ (unit_axis_norm a i)). apply B', (unit_turned c f g _ H), unit_axis_norm.
    + rewrite H1. rewrite <- (sph_turned (/ c) g f (map f l) (unit_axis a' i') H2 Hn' HZ' (unit_axis_norm a' i')), MM. apply B, (unit_turned (/ c) g f _ H2), unit_axis_norm.
Qed.
Print Assumptions C158_turned.
(** Azimuthal rotations by [shift_phi], and other units, are of this kind. *)
Theorem C158_shift_phi : forall s l l', shift_phi (Scalar s) l = Ok l' -> l <> [] -> (forall p, In p l -> p_sq p <> 0) -> c_parameter l' = c_parameter l.
Proof.
  intros s l l'. unfold shift_phi, spread. cbn [bind]. rewrite map2_repeat. intros E; injection E as <-. intros Hn HZ.
  apply (C158_turned 1 (rotate s) (rotate (- s)) l); [|exact Hn|exact HZ]. split; [lra|].
  assert (D : forall a p q, dot3 (rotate a p) (rotate a q) = dot3 p q).
  { intros a p q. unfold dot3, rotate; cbn [px py pz]. transitivity ((Rsqr (sin a) + Rsqr (cos a)) * (px p * px q + py p * py q) + pz p * pz q); [unfold Rsqr; ring|]. rewrite sin2_cos2. ring. }
  split; [intros p q; rewrite D; ring|]. split; [intros p q; rewrite D; field|]. split; intros p; rewrite rotate_comp; [rewrite Rplus_opp_r|rewrite Rplus_opp_l]; apply rotate_0.
Qed.
Print Assumptions C158_shift_phi.
Definition in_units (c : R) (p : mom) : mom := Mom (c * px p) (c * py p) (c * pz p) (c * en p).
Theorem C158_units : forall c l, c <> 0 -> l <> [] -> (forall p, In p l -> p_sq p <> 0) -> c_parameter (map (in_units c) l) = c_parameter l.
Proof.
  intros c l Hc Hn HZ. apply (C158_turned (Rabs c) (in_units c) (in_units (/ c)) l); [|exact Hn|exact HZ]. split; [apply Rabs_pos_lt, Hc|].
  assert (A : Rabs c * Rabs c = c * c) by (rewrite <- Rabs_mult; apply Rabs_pos_eq; nra). rewrite A.
  split; [intros p q; unfold dot3, in_units; cbn; ring|]. split; [intros p q; unfold dot3, in_units; cbn; field; exact Hc|].
  split; intros [x y z e]; unfold in_units; cbn; f_equal; field; exact Hc.
Qed.
Print Assumptions C158_units.
Example C158_demo : similar 1 flip_z flip_z.
Proof. split; [lra|]. split; [intros; unfold dot3; cbn; ring|]. split; [intros; unfold dot3; cbn; field|]. split; intros [x y z e]; unfold flip_z; cbn; rewrite Ropp_involutive; reflexivity. Qed.
