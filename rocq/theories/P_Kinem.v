(** C57 - C63, C90: masses, rapidities, boosts and rotations. *)
From Verif Require Import Prelude Keys SpecReal RealBase Kinem KinemProofs.
Open Scope R_scope.

(** C57 *)
Theorem C57_mass : forall p,
  signed_root (en p * en p - (px p * px p + py p * py p + pz p * pz p)) (mass p) /\
  signed_root (en p * en p - pz p * pz p) (mass_t p).
Proof.
  intros p. split; [|apply root_diff_spec].
  replace (en p * en p - (px p * px p + py p * py p + pz p * pz p)) with (mink p p) by (unfold mink; ring). apply mass_root.
Qed.
Example C57_demo : mass (Mom 3 4 0 13) = 12 /\ mass (Mom 3 4 0 4) = -3.
Proof. split; eapply signed_root_unique; try apply mass_root; unfold mink, signed_root; cbn; [rewrite Rabs_pos_eq by lra | rewrite Rabs_left by lra]; lra. Qed.

(** C58 *)
Theorem C58_rapidity : forall p, ZERO_TOL < en p - Rabs (pz p) ->
  rapidity ZERO_TOL p = Fin (/ 2 * ln ((en p + pz p) / (en p - pz p))) /\
  rapidity ZERO_TOL p = Fin (arctanh (pz p / en p)).
Proof.
  intros p H. assert (0 <= ZERO_TOL) by (unfold ZERO_TOL; lra). rewrite rapidity_fin by assumption. split; [reflexivity|].
  f_equal. unfold true_rap, arctanh. pose proof (Rabs_pos (pz p)). assert (HL : Rabs (pz p) < en p) by lra. apply Rabs_def2 in HL. f_equal. f_equal. field. lra.
Qed.
Theorem C58_light_cone : forall p, Rabs (en p - Rabs (pz p)) <= ZERO_TOL ->
  (pz p < 0 -> rapidity ZERO_TOL p = NInf) /\ (0 < pz p -> rapidity ZERO_TOL p = PInf).
Proof. intros p H. rewrite rapidity_inf by exact H. split; intros; destruct (Rlt_dec (pz p) 0); try reflexivity; lra. Qed.
Theorem C58_odd : forall p, Rabs (pz p) <= en p -> pz p <> 0 -> rapidity ZERO_TOL (flip_z p) = eopp (rapidity ZERO_TOL p).
Proof.
  intros p H Hn. assert (0 <= ZERO_TOL) by (unfold ZERO_TOL; lra). destruct (Rle_dec (en p - Rabs (pz p)) ZERO_TOL) as [L|L].
  - rewrite !rapidity_inf; unfold flip_z; cbn [pz en]; rewrite ?Rabs_Ropp; try (rewrite Rabs_pos_eq; lra).
    destruct (Rlt_dec (- pz p) 0), (Rlt_dec (pz p) 0); cbn; try reflexivity; lra.
  - rewrite !rapidity_fin; unfold flip_z; cbn [pz en]; rewrite ?Rabs_Ropp; try lra. cbn. f_equal. apply true_rap_odd. pose proof (Rabs_pos (pz p)). unfold ZERO_TOL in *. lra.
Qed.
Example C58_demo : ZERO_TOL < en (Mom 1 2 3 10) - Rabs (pz (Mom 1 2 3 10)).
Proof. cbn. rewrite Rabs_pos_eq by lra. unfold ZERO_TOL. lra. Qed.

(** C59 *)
Theorem C59_shift_rapidity : forall d l, exists l', shift_rapidity (Scalar d) l = Ok l' /\ length l' = length l /\
  (forall i p, nth_error l i = Some p -> exists q, nth_error l' i = Some q /\ boosted d p q /\ mass q = mass p /\
     (Rabs (pz p) < en p -> true_rap q = true_rap p + d) /\
     (forall y y', Rabs (pz p) <= en p -> rapidity ZERO_TOL p = Fin y -> rapidity ZERO_TOL q = Fin y' -> y' = y + d)) /\
  (forall i j pi pj qi qj, nth_error l i = Some pi -> nth_error l j = Some pj -> nth_error l' i = Some qi -> nth_error l' j = Some qj ->
     mink qi qj = mink pi pj).
Proof.
  intros d l. unfold shift_rapidity, spread. cbn [bind]. rewrite map2_repeat. eexists. split; [reflexivity|]. split; [apply map_length|]. split.
  - intros i p Hp. exists (boost d p). rewrite nth_error_map', Hp. split; [reflexivity|]. split; [apply boost_boosted|]. split; [apply mass_inv, mink_boost|].
    split; [apply true_rap_boost, boost_boosted|]. intros y y' HE H1 H2. assert (HT : 0 <= ZERO_TOL) by (unfold ZERO_TOL; lra).
    apply rapidity_fin_inv in H1 as (L1 & ->); auto. assert (HL : Rabs (pz p) < en p) by lra.
    apply rapidity_fin_inv in H2 as (L2 & ->); auto; [apply true_rap_boost; [apply boost_boosted | exact HL] | left; eapply boosted_timelike; [apply boost_boosted | exact HL]].
  - intros i j pi pj qi qj A B C D. rewrite nth_error_map', A in C. rewrite nth_error_map', B in D. injection C as <-. injection D as <-. apply mink_boost.
Qed.
Theorem C59_shift_rapidity_each : forall ds l, length ds = length l -> length l <> 1%nat ->
  exists l', shift_rapidity (Each ds) l = Ok l' /\ length l' = length l /\
  forall i p d, nth_error l i = Some p -> nth_error ds i = Some d -> exists q, nth_error l' i = Some q /\ boosted d p q /\ mass q = mass p.
Proof.
  intros ds l HL HN. exists (map2 boost ds l). split; [|split].
  - unfold shift_rapidity, spread. destruct ds as [|a [|b r]]; [|cbn in HL; congruence|].
    + destruct l; [reflexivity|discriminate].
    + rewrite (proj2 (Nat.eqb_eq _ _) HL). reflexivity.
  - rewrite map2_length. lia.
  - intros i p d Hp Hd. exists (boost d p). rewrite map2_nth, Hd, Hp. split; [reflexivity|]. split; [apply boost_boosted | apply mass_inv, mink_boost].
Qed.
Theorem C59_compose_inverse : forall a b l la, shift_rapidity (Scalar a) l = Ok la ->
  shift_rapidity (Scalar b) la = shift_rapidity (Scalar (a + b)) l /\ shift_rapidity (Scalar (- a)) la = Ok l.
Proof.
  intros a b l la. unfold shift_rapidity, spread. cbn [bind]. rewrite map2_repeat. intros H; injection H as <-. rewrite !map2_repeat, !map_map. split; f_equal.
  - apply map_ext. intros p. apply boost_comp.
  - rewrite <- (map_id l) at 2. apply map_ext. intros p. rewrite boost_comp, Rplus_opp_r. apply boost_0.
Qed.

(** C60 *)
Lemma rotate_comp a b p : rotate b (rotate a p) = rotate (a + b) p.
Proof. apply mom_eq; cbn; rewrite ?cos_plus, ?sin_plus; ring. Qed.
Lemma rotate_0 p : rotate 0 p = p.
Proof. apply mom_eq; cbn; rewrite ?cos_0, ?sin_0; ring. Qed.
Lemma rotate_pt a p : pt (rotate a p) = pt p.
Proof. unfold pt. f_equal. cbn. transitivity ((Rsqr (sin a) + Rsqr (cos a)) * (px p * px p + py p * py p)); [unfold Rsqr; ring|]. rewrite sin2_cos2. ring. Qed.

Theorem C60_shift_phi : forall a l, exists l', shift_phi (Scalar a) l = Ok l' /\ length l' = length l /\
  (forall i p, nth_error l i = Some p -> exists q, nth_error l' i = Some q /\ rotated a p q /\ pt q = pt p /\ mass q = mass p /\
     (forall f, phi p = Fin f -> exists f', phi q = Fin f' /\ -PI < f' <= PI /\ same_angle f' (f + a))) /\
  (forall i j pi pj qi qj, nth_error l i = Some pi -> nth_error l j = Some pj -> nth_error l' i = Some qi -> nth_error l' j = Some qj ->
     mink qi qj = mink pi pj).
Proof.
  intros a l. unfold shift_phi, spread. cbn [bind]. rewrite map2_repeat. eexists. split; [reflexivity|]. split; [apply map_length|]. split.
  - intros i p Hp. exists (rotate a p). rewrite nth_error_map', Hp. split; [reflexivity|]. split; [apply rotate_rotated|]. split; [apply rotate_pt|]. split; [apply mass_inv, mink_rotate|].
    intros f. unfold phi. rewrite rotate_pt. destruct (Rle_dec (Rabs (pt p)) ZERO_TOL) as [|L]; [discriminate|]. intros E; injection E as <-.
    eexists. split; [reflexivity|]. split; [apply atan2_bound|].
    destruct (atan2_spec (py p) (px p)) as (_ & Hx & Hy). destruct (atan2_spec (py (rotate a p)) (px (rotate a p))) as (_ & Hx' & Hy').
    fold (pt p) in Hx, Hy. fold (pt (rotate a p)) in Hx', Hy'. rewrite rotate_pt in Hx', Hy'.
    assert (HP : 0 < pt p). { pose proof (pt_ge p). rewrite Rabs_pos_eq in L by assumption. unfold ZERO_TOL in L. lra. }
    set (f := atan2 (py p) (px p)) in *. set (f' := atan2 (py (rotate a p)) (px (rotate a p))) in *.
    apply same_angle_trig; apply (Rmult_eq_reg_l (pt p)); try lra.
    + rewrite <- Hx', cos_plus. cbn [rotate px]. rewrite Hx at 1. rewrite Hy at 1. ring.
    + rewrite <- Hy', sin_plus. cbn [rotate py]. rewrite Hx at 1. rewrite Hy at 1. ring.
  - intros i j pi pj qi qj A B C D. rewrite nth_error_map', A in C. rewrite nth_error_map', B in D. injection C as <-. injection D as <-. apply mink_rotate.
Qed.
Theorem C60_shift_phi_each : forall ds l, length ds = length l -> length l <> 1%nat ->
  exists l', shift_phi (Each ds) l = Ok l' /\ length l' = length l /\
  forall i p d, nth_error l i = Some p -> nth_error ds i = Some d -> exists q, nth_error l' i = Some q /\ rotated d p q /\ mass q = mass p.
Proof.
  intros ds l HL HN. exists (map2 rotate ds l). split; [|split].
  - unfold shift_phi, spread. destruct ds as [|a [|b r]]; [|cbn in HL; congruence|].
    + destruct l; [reflexivity|discriminate].
    + rewrite (proj2 (Nat.eqb_eq _ _) HL). reflexivity.
  - rewrite map2_length. lia.
  - intros i p d Hp Hd. exists (rotate d p). rewrite map2_nth, Hd, Hp. split; [reflexivity|]. split; [apply rotate_rotated | apply mass_inv, mink_rotate].
Qed.
Theorem C60_compose_inverse : forall a b l la, shift_phi (Scalar a) l = Ok la ->
  shift_phi (Scalar b) la = shift_phi (Scalar (a + b)) l /\ shift_phi (Scalar (- a)) la = Ok l.
Proof.
  intros a b l la. unfold shift_phi, spread. cbn [bind]. rewrite map2_repeat. intros H; injection H as <-. rewrite !map2_repeat, !map_map. split; f_equal.
  - apply map_ext. intros p. apply rotate_comp.
  - rewrite <- (map_id l) at 2. apply map_ext. intros p. rewrite rotate_comp, Rplus_opp_r. apply rotate_0.
Qed.

(** C61 *)
Theorem C61_shift_eta_experimental : forall s l, exists l', shift_eta_exp (Scalar s) l = Ok l' /\ length l' = length l /\
  forall i p, nth_error l i = Some p -> 0 < pt_sq p ->
    exists q z, nth_error l' i = Some q /\ epx q = px p /\ epy q = py p /\ epz q = Fin z /\ een q = NaN /\
      pseudo_rap (Mom (px p) (py p) z 0) = pseudo_rap p + s /\ eta (Mom (px p) (py p) z 0) = Fin (pseudo_rap p + s).
Proof.
  intros s l. unfold shift_eta_exp, spread. cbn [bind]. rewrite map2_repeat. eexists. split; [reflexivity|]. split; [apply map_length|].
  intros i p Hp HP. exists (shift_eta_one s p), (pt p * sinh (pseudo_rap p + s)). rewrite nth_error_map', Hp. split; [reflexivity|].
  unfold shift_eta_one. rewrite (eta_fin p HP). cbn. repeat split.
  - apply sinh_inj. rewrite sinh_pseudo by exact HP. unfold pt, pt_sq; cbn. field. apply Rgt_not_eq, sqrt_lt_R0. exact HP.
  - rewrite eta_fin by exact HP. f_equal. apply sinh_inj. rewrite sinh_pseudo by exact HP. unfold pt, pt_sq; cbn. field. apply Rgt_not_eq, sqrt_lt_R0. exact HP.
Qed.
Example C61_demo : 0 < pt_sq (Mom 1 0 2 5). Proof. unfold pt_sq; cbn; lra. Qed.

(** ** shift_eta *)
Lemma boosted_pt d p q : boosted d p q -> pt_sq q = pt_sq p.
Proof. intros (A & B & _). unfold pt_sq. rewrite A, B. reflexivity. Qed.
Lemma map_boost_comp a b l : map (boost b) (map (boost a) l) = map (boost (a + b)) l.
Proof. rewrite map_map. apply map_ext. intros p. apply boost_comp. Qed.
Lemma map_boost_0 l : map (boost 0) l = l.
Proof. rewrite <- (map_id l) at 2. apply map_ext. apply boost_0. Qed.

Lemma isclose_fin x y t : 0 <= t -> (isclose (Fin x) (Fin y) t = true <-> Rabs (x - y) <= t).
Proof.
  intros H. cbn. destruct (Req_EM_T x y) as [->|N]; [rewrite Rminus_diag_eq, Rabs_R0 by reflexivity; tauto|].
  destruct (Rle_dec (Rabs (x - y)) t); split; auto; discriminate.
Qed.

(** Every finite outcome is one boost of the whole array, whatever the input. *)
Lemma eta_loop_boost target tol n : forall em l l' w, eta_loop target tol n em l = EtaOut l' w -> exists D, l' = map (boost D) l.
Proof.
  induction n as [|n IH]; intros em l l' w H; cbn [eta_loop] in H; [injection H as <- _; exists 0; symmetry; apply map_boost_0|].
  destruct (isclose em target tol); [injection H as <- _; exists 0; symmetry; apply map_boost_0|].
  destruct (esub target (resultant_rap false l)) as [c| | |]; try discriminate. apply IH in H as (D & ->). exists (c + D). apply map_boost_comp.
Qed.

Lemma eta_loop_unwarned target tol n : forall l l', eta_loop target tol n (resultant_rap true l) l = EtaOut l' false ->
  isclose (resultant_rap true l') target tol = true.
Proof.
  induction n as [|n IH]; intros l l' H; cbn [eta_loop] in H; [discriminate|].
  destruct (isclose (resultant_rap true l) target tol) eqn:E; [injection H as <-; exact E|].
  destruct (esub target (resultant_rap false l)) as [c| | |]; try discriminate. eapply IH. exact H.
Qed.

Theorem C62_shift_eta_is_boost : forall s n tol l l' w, shift_eta s n tol l = EtaOut l' w ->
  exists D, shift_rapidity (Scalar D) l = Ok l' /\
    (w = false -> 0 <= tol -> 0 < pt_sq (msum l) -> Rabs (pseudo_rap (msum l') - (pseudo_rap (msum l) + s)) <= tol).
Proof.
  intros s n tol l l' w H. unfold shift_eta in H. destruct (eta_loop_boost _ _ _ _ _ _ _ H) as (D & E). exists D. split.
  - unfold shift_rapidity, spread. cbn [bind]. rewrite map2_repeat, E. reflexivity.
  - intros -> HT HP. apply eta_loop_unwarned in H. unfold resultant_rap in H. rewrite (eta_fin (msum l) HP) in H. subst l'.
    rewrite msum_boost in *. rewrite eta_fin in H by (rewrite (boosted_pt D (msum l)); [exact HP | apply boost_boosted]).
    cbn [eadd] in H. apply isclose_fin in H; assumption.
Qed.

Lemma light_cone p : Rabs (pz p) < en p ->
  en p - Rabs (pz p) = sqrt (en p * en p - pz p * pz p) * exp (- Rabs (true_rap p)).
Proof.
  assert (G : forall p, 0 <= pz p < en p -> en p - pz p = sqrt (en p * en p - pz p * pz p) * exp (- true_rap p)).
  { clear. intros p (A & B). assert (HM : 0 < en p * en p - pz p * pz p) by nra. unfold true_rap.
    assert (E : exp (- (/ 2 * ln ((en p + pz p) / (en p - pz p)))) = sqrt (en p - pz p) / sqrt (en p + pz p)).
    { assert (0 < sqrt (en p + pz p)) by (apply sqrt_lt_R0; lra). assert (0 < sqrt (en p - pz p)) by (apply sqrt_lt_R0; lra).
      apply Rsqr_inj; [left; apply exp_pos | apply Rlt_le, Rdiv_lt_0_compat; assumption |]. unfold Rsqr. rewrite <- exp_plus.
      replace (- (/ 2 * ln ((en p + pz p) / (en p - pz p))) + - (/ 2 * ln ((en p + pz p) / (en p - pz p)))) with (- ln ((en p + pz p) / (en p - pz p))) by lra.
      rewrite exp_Ropp, exp_ln by (apply Rdiv_lt_0_compat; lra).
      replace (sqrt (en p - pz p) / sqrt (en p + pz p) * (sqrt (en p - pz p) / sqrt (en p + pz p))) with ((sqrt (en p - pz p) * sqrt (en p - pz p)) / (sqrt (en p + pz p) * sqrt (en p + pz p))) by (field; lra).
      rewrite !sqrt_sqrt by lra. field. lra. }
    rewrite E. replace (en p * en p - pz p * pz p) with ((en p - pz p) * (en p + pz p)) by ring. rewrite sqrt_mult by lra.
    assert (0 < sqrt (en p + pz p)) by (apply sqrt_lt_R0; lra).
    transitivity (sqrt (en p - pz p) * sqrt (en p - pz p)); [rewrite sqrt_sqrt by lra; reflexivity|]. field. lra. }
  intros H. destruct (Rle_dec 0 (pz p)) as [S|S].
  - rewrite Rabs_pos_eq in * by exact S. rewrite Rabs_pos_eq by (apply true_rap_nonneg; lra). apply G. lra.
  - rewrite (Rabs_left (pz p)) in * by lra. specialize (G (flip_z p)). cbn in G. rewrite true_rap_odd in G by (rewrite Rabs_left; lra).
    pose proof (true_rap_nonneg (flip_z p)) as N. cbn in N. specialize (N ltac:(lra)). rewrite true_rap_odd in N by (rewrite Rabs_left; lra).
    rewrite Rabs_left1 by lra. rewrite G by lra. f_equal. f_equal. ring.
Qed.

(** The exact outcome for a total momentum with E > |pz|: the boost puts the *rapidity* of the total
    at the target, and no later correction changes anything. *)
Theorem C62_exact_outcome : forall s n tol l, let T := msum l in let target := pseudo_rap T + s in
  0 <= tol -> 0 < pt_sq T -> ZERO_TOL < en T - Rabs (pz T) ->
  (Nat.lt 1 n -> ZERO_TOL < sqrt (en T * en T - pz T * pz T) * exp (- Rabs target)) ->
  let l1 := map (boost (target - true_rap T)) l in
  exists w, shift_eta s n tol l = EtaOut (if Rle_dec (Rabs s) tol then l else match n with O => l | _ => l1 end) w /\
    (w = false <-> (n <> 0%nat /\ Rabs s <= tol) \/ (Nat.lt 1 n /\ Rabs (pseudo_rap (msum l1) - target) <= tol)) /\
    (tol < Rabs s -> (0 < n)%nat -> true_rap (msum l1) = target).
Proof.
  intros s n tol l T target HT HP HE HN l1. assert (HZ : 0 <= ZERO_TOL) by (unfold ZERO_TOL; lra). assert (HL : Rabs (pz T) < en T) by lra.
  assert (B1 : boosted (target - true_rap T) T (msum l1)) by (unfold l1; rewrite msum_boost; apply boost_boosted).
  assert (R1 : true_rap (msum l1) = target) by (rewrite (true_rap_boost _ _ _ B1 HL); ring).
  assert (P1 : 0 < pt_sq (msum l1)) by (rewrite (boosted_pt _ _ _ B1); exact HP).
  unfold shift_eta. unfold resultant_rap at 1 2. fold T. rewrite (eta_fin T HP). cbn [eadd]. fold target.
  assert (ES : isclose (Fin (pseudo_rap T)) (Fin target) tol = true <-> Rabs s <= tol).
  { rewrite isclose_fin by exact HT. unfold target. replace (pseudo_rap T - (pseudo_rap T + s)) with (- s) by ring. rewrite Rabs_Ropp. tauto. }
  assert (E1 : isclose (resultant_rap true l1) (Fin target) tol = true <-> Rabs (pseudo_rap (msum l1) - target) <= tol).
  { unfold resultant_rap. rewrite (eta_fin _ P1). apply isclose_fin. exact HT. }
  destruct n as [|n].
  - exists true. cbn. split; [destruct (Rle_dec (Rabs s) tol); reflexivity|]. split; [|intros _ H; inversion H]. split; [discriminate|]. intros [(H & _)|(H & _)]; [contradiction|inversion H].
  - cbn [eta_loop]. destruct (isclose (Fin (pseudo_rap T)) (Fin target) tol) eqn:EC.
    + exists false. rename EC into EC0; pose proof (proj1 ES eq_refl) as EC. destruct (Rle_dec (Rabs s) tol); [|contradiction]. split; [reflexivity|]. split; [|intros; exact R1]. split; [left; split; [discriminate|exact EC] | reflexivity].
    + assert (NS : ~ Rabs s <= tol) by (intros H; apply ES in H; congruence). destruct (Rle_dec (Rabs s) tol) as [|_]; [contradiction|].
      unfold resultant_rap at 1. fold T. rewrite rapidity_fin by assumption. cbn [esub eopp eadd]. change (target + - true_rap T) with (target - true_rap T). fold l1.
      assert (Stall : forall m, (m <> 0%nat -> ZERO_TOL < sqrt (en T * en T - pz T * pz T) * exp (- Rabs target)) ->
        exists w, eta_loop (Fin target) tol m (resultant_rap true l1) l1 = EtaOut l1 w /\ (w = false <-> m <> 0%nat /\ Rabs (pseudo_rap (msum l1) - target) <= tol)).
      { induction m as [|m IH]; intros Hm.
        - exists true. cbn. split; [reflexivity|]. split; [discriminate | intros (H & _); contradiction].
        - cbn [eta_loop]. destruct (isclose (resultant_rap true l1) (Fin target) tol) eqn:E2.
          + exists false. split; [reflexivity|]. split; [split; [discriminate | apply E1; reflexivity] | reflexivity].
          + unfold resultant_rap at 1. rewrite rapidity_fin.
            * rewrite R1. cbn [esub eopp eadd]. replace (target + - target) with 0 by ring. rewrite map_boost_0. destruct IH as (w & Ew & Hw).
              { intros _. apply Hm. discriminate. }
              exists w. split; [exact Ew|]. rewrite Hw. split; [intros (_ & H); apply E1 in H; congruence | intros (_ & H); apply E1 in H; congruence].
            * exact HZ.
            * rewrite light_cone by (eapply boosted_timelike; eauto). rewrite R1.
              replace (en (msum l1) * en (msum l1) - pz (msum l1) * pz (msum l1)) with (en T * en T - pz T * pz T); [apply Hm; discriminate|].
              pose proof (boosted_plus _ _ _ B1) as A1. pose proof (boosted_minus _ _ _ B1) as A2.
              replace (en (msum l1) * en (msum l1) - pz (msum l1) * pz (msum l1)) with ((en (msum l1) + pz (msum l1)) * (en (msum l1) - pz (msum l1))) by ring.
              rewrite A1, A2, exp_Ropp. pose proof (exp_pos (target - true_rap T)). field. lra. }
      destruct (Stall n) as (w & Ew & Hw). { intros H. apply HN. lia. }
      exists w. split; [exact Ew|]. split; [|intros; exact R1]. rewrite Hw. split.
      * intros (A & B). right. split; [lia|exact B].
      * intros [(_ & A)|(A & B)]; [contradiction|]. split; [lia|exact B].
Qed.

Example C62_demo : let T := msum [Mom 3 4 0 13; Mom 0 1 2 3] in 0 < pt_sq T /\ ZERO_TOL < en T - Rabs (pz T).
Proof. cbn. unfold pt_sq. cbn. rewrite Rabs_pos_eq by lra. unfold ZERO_TOL. lra. Qed.

(** C63: with one permitted correction it warns although the target is hit exactly. *)
Lemma sqrt25 : sqrt 25 = 5.
Proof. replace 25 with (5 * 5) by ring. apply sqrt_square. lra. Qed.

Theorem C63_shift_eta_warns_refuted : exists l l', shift_eta 1 1 ZERO_TOL l = EtaOut l' true /\
  pseudo_rap (msum l') = pseudo_rap (msum l) + 1.
Proof.
  set (l := [Mom 3 4 0 5]). assert (ET : msum l = Mom 3 4 0 5) by (apply mom_eq; cbn; ring).
  destruct (C62_exact_outcome 1 1 ZERO_TOL l) as (w & E & HW & _); rewrite ?ET; cbn [px py pz en].
  - unfold ZERO_TOL; lra.
  - unfold pt_sq; cbn; lra.
  - rewrite Rabs_R0. unfold ZERO_TOL; lra.
  - intros H; lia.
  - rewrite ET in *. set (P0 := Mom 3 4 0 5) in *. exists l, (map (boost (pseudo_rap P0 + 1 - true_rap P0)) l).
    destruct (Rle_dec (Rabs 1) ZERO_TOL) as [C|C]; [rewrite Rabs_R1 in C; unfold ZERO_TOL in C; lra|].
    split.
    + rewrite E. f_equal. destruct w; [reflexivity|]. exfalso. destruct (proj1 HW eq_refl) as [(_ & A)|(A & _)]; [contradiction|lia].
    + rewrite ET, msum_boost, ET.
      assert (Q0 : pseudo_rap P0 = 0). { unfold pseudo_rap, P0, p_sq; cbn. replace (3 * 3 + 4 * 4 + 0 * 0) with 25 by ring. rewrite sqrt25. replace ((5 + 0) / (5 - 0)) with 1 by field. rewrite ln_1. ring. }
      assert (Y0 : true_rap P0 = 0). { unfold true_rap, P0; cbn. replace ((5 + 0) / (5 - 0)) with 1 by field. rewrite ln_1. ring. }
      rewrite Q0, Y0. replace (0 + 1 - 0) with 1 by ring. replace (0 + 1) with 1 by ring. destruct (boost_boosted 1 P0) as (A & B & C1 & D).
      apply sinh_inj. rewrite sinh_pseudo by (unfold pt_sq; rewrite A, B; cbn; lra). unfold pt_sq. rewrite A, B, C1. cbn.
      replace (3 * 3 + 4 * 4) with 25 by ring. rewrite sqrt25. field.
Qed.

(** With two or more permitted corrections the warning is exact. *)
Theorem C63_warning_exact_partial : forall s n tol l l' w, let T := msum l in let target := pseudo_rap T + s in
  0 <= tol -> 0 < pt_sq T -> ZERO_TOL < en T - Rabs (pz T) -> (1 < n)%nat ->
  ZERO_TOL < sqrt (en T * en T - pz T * pz T) * exp (- Rabs target) ->
  shift_eta s n tol l = EtaOut l' w -> (w = true <-> tol < Rabs (pseudo_rap (msum l') - target)).
Proof.
  intros s n tol l l' w T target HT HP HE Hn HX H. destruct (C62_exact_outcome s n tol l HT HP HE (fun _ => HX)) as (w' & E & HW & _).
  rewrite E in H. injection H as E1 <-. fold T in HW, E1. fold target in HW, E1.
  assert (G : Rabs (pseudo_rap (msum l') - target) <= tol <-> w' = false).
  { rewrite HW. destruct (Rle_dec (Rabs s) tol) as [L|L].
    - subst l'. fold T. unfold target. replace (pseudo_rap T - (pseudo_rap T + s)) with (- s) by ring. rewrite Rabs_Ropp. split; [intros; left; split; [lia|exact L] | intros _; exact L].
    - destruct n as [|n]; [lia|]. subst l'. split; [intros A; right; split; [lia | exact A] | intros [(_ & A)|(_ & A)]; [contradiction|exact A]]. }
  destruct w'; split; intros A; try reflexivity; try discriminate.
  - apply Rnot_le_lt. intros B. apply G in B. discriminate.
  - exfalso. pose proof (proj2 G eq_refl). lra.
Qed.

(** C90: for every massive total the requested pseudorapidity is missed (unless the target is 0),
    for every number of corrections: |eta| ends strictly above |target|. *)
Lemma sinh_abs x : sinh (Rabs x) = Rabs (sinh x).
Proof.
  destruct (Rle_dec 0 x) as [H|H].
  - rewrite (Rabs_pos_eq x) by exact H. rewrite Rabs_pos_eq; [reflexivity|]. destruct (Req_dec x 0) as [->|]; [rewrite sinh_0; lra|]. left. apply sinh_gt. lra.
  - rewrite (Rabs_left x) by lra. rewrite sinh_neg. rewrite Rabs_left; [reflexivity|]. pose proof (sinh_gt (- x)). rewrite sinh_neg in H0. lra.
Qed.

Lemma l1_eta T T1 target : boosted (target - true_rap T) T T1 -> Rabs (pz T) < en T -> 0 < pt_sq T ->
  sinh (pseudo_rap T1) = sqrt (en T * en T - pz T * pz T) / sqrt (pt_sq T) * sinh target.
Proof.
  intros B HL HP. assert (P1 : 0 < pt_sq T1) by (rewrite (boosted_pt _ _ _ B); exact HP). rewrite sinh_pseudo by exact P1. rewrite (boosted_pt _ _ _ B).
  pose proof (boosted_timelike _ _ _ B HL) as L1. pose proof (sinh_true_rap T1 L1) as S. rewrite (true_rap_boost _ _ _ B HL) in S. replace (true_rap T + (target - true_rap T)) with target in S by ring.
  assert (EI : en T1 * en T1 - pz T1 * pz T1 = en T * en T - pz T * pz T).
  { replace (en T1 * en T1 - pz T1 * pz T1) with ((en T1 + pz T1) * (en T1 - pz T1)) by ring. rewrite (boosted_plus _ _ _ B), (boosted_minus _ _ _ B), exp_Ropp. pose proof (exp_pos (target - true_rap T)). field. lra. }
  rewrite EI in S. assert (0 < sqrt (en T * en T - pz T * pz T)). { apply sqrt_lt_R0. apply Rabs_def2 in HL. nra. }
  assert (0 < sqrt (pt_sq T)) by (apply sqrt_lt_R0; exact HP). rewrite S. field. lra.
Qed.

Theorem C90_shift_eta_misses_refuted : forall s n tol l, let T := msum l in let target := pseudo_rap T + s in
  0 <= tol -> 0 < pt_sq T -> ZERO_TOL < en T - Rabs (pz T) -> 0 < mink T T -> tol < Rabs s -> (0 < n)%nat -> target <> 0 ->
  ZERO_TOL < sqrt (en T * en T - pz T * pz T) * exp (- Rabs target) ->
  exists l' w, shift_eta s n tol l = EtaOut l' w /\ Rabs target < Rabs (pseudo_rap (msum l')) /\ true_rap (msum l') = target.
Proof.
  intros s n tol l T target HT HP HE HM Hs Hn Ht HX. destruct (C62_exact_outcome s n tol l HT HP HE (fun _ => HX)) as (w & E & _ & HR).
  specialize (HR Hs Hn). fold T in E, HR. fold target in E, HR. destruct (Rle_dec (Rabs s) tol) as [C|_]; [lra|]. destruct n as [|n]; [lia|].
  exists (map (boost (target - true_rap T)) l), w. split; [exact E|]. split; [|exact HR].
  assert (HL : Rabs (pz T) < en T) by (unfold ZERO_TOL in HE; lra).
  assert (B1 : boosted (target - true_rap T) T (msum (map (boost (target - true_rap T)) l))) by (rewrite msum_boost; apply boost_boosted).
  pose proof (l1_eta T _ target B1 HL HP) as S. set (T1 := msum (map (boost (target - true_rap T)) l)) in *.
  assert (K : 1 < sqrt (en T * en T - pz T * pz T) / sqrt (pt_sq T)).
  { apply Rmult_lt_reg_r with (sqrt (pt_sq T)); [apply sqrt_lt_R0; exact HP|]. unfold Rdiv. rewrite Rmult_assoc, Rinv_l by (apply Rgt_not_eq, sqrt_lt_R0; exact HP). rewrite Rmult_1_l, Rmult_1_r.
    apply sqrt_lt_1; [lra| |]; unfold mink, pt_sq in *; nra. }
  apply Rnot_le_lt. intros C. assert (sinh (Rabs (pseudo_rap T1)) <= sinh (Rabs target)). { destruct C as [C|C]; [left; apply sinh_lt; exact C | rewrite C; lra]. }
  rewrite !sinh_abs, S, Rabs_mult in H. rewrite (Rabs_pos_eq (sqrt _ / sqrt _)) in H by lra. assert (0 < Rabs (sinh target)); [|nra].
  apply Rabs_pos_lt. intros E0. apply Ht, sinh_zero, E0.
Qed.
(** A concrete massive event meeting all hypotheses. *)
Example C90_demo : let T := msum [Mom 3 4 0 13] in
  0 < pt_sq T /\ ZERO_TOL < en T - Rabs (pz T) /\ 0 < mink T T /\ pseudo_rap T + 1 <> 0 /\
  ZERO_TOL < sqrt (en T * en T - pz T * pz T) * exp (- Rabs (pseudo_rap T + 1)).
Proof.
  assert (ET : msum [Mom 3 4 0 13] = Mom 3 4 0 13) by (apply mom_eq; cbn; ring). cbv zeta. rewrite ET. set (P0 := Mom 3 4 0 13).
  assert (Q0 : pseudo_rap P0 = 0). { unfold pseudo_rap, P0, p_sq; cbn. replace (3 * 3 + 4 * 4 + 0 * 0) with 25 by ring. rewrite sqrt25. replace ((5 + 0) / (5 - 0)) with 1 by field. rewrite ln_1. ring. }
  rewrite Q0. replace (0 + 1) with 1 by ring. unfold P0, pt_sq, mink; cbn. rewrite Rabs_R0, Rabs_R1. repeat split; try (unfold ZERO_TOL; lra).
  replace (13 * 13 - 0 * 0) with (13 * 13) by ring. rewrite sqrt_square by lra. assert (/ 3 <= exp (- (1))).
  { rewrite exp_Ropp. apply Rinv_le_contravar; [apply exp_pos | apply exp_le_3]. }
  unfold ZERO_TOL. lra.
Qed.

(** For a massless total with E > |pz| one correction reaches the target exactly. *)
Theorem C90_massless_partial : forall s n tol l, let T := msum l in let target := pseudo_rap T + s in
  0 <= tol -> 0 < pt_sq T -> ZERO_TOL < en T - Rabs (pz T) -> mink T T = 0 -> tol < Rabs s -> (0 < n)%nat ->
  ZERO_TOL < sqrt (en T * en T - pz T * pz T) * exp (- Rabs target) ->
  exists l' w, shift_eta s n tol l = EtaOut l' w /\ pseudo_rap (msum l') = target.
Proof.
  intros s n tol l T target HT HP HE HM Hs Hn HX. destruct (C62_exact_outcome s n tol l HT HP HE (fun _ => HX)) as (w & E & _ & HR).
  fold T in E. fold target in E. destruct (Rle_dec (Rabs s) tol) as [C|_]; [lra|]. destruct n as [|n]; [lia|].
  exists (map (boost (target - true_rap T)) l), w. split; [exact E|].
  assert (HL : Rabs (pz T) < en T) by (unfold ZERO_TOL in HE; lra).
  assert (B1 : boosted (target - true_rap T) T (msum (map (boost (target - true_rap T)) l))) by (rewrite msum_boost; apply boost_boosted).
  apply sinh_inj. rewrite (l1_eta T _ target B1 HL HP). replace (en T * en T - pz T * pz T) with (pt_sq T) by (unfold mink, pt_sq in *; lra).
  field. apply Rgt_not_eq, sqrt_lt_R0, HP.
Qed.


Print Assumptions C57_mass.
Print Assumptions C58_rapidity.
Print Assumptions C58_light_cone.
Print Assumptions C58_odd.
Print Assumptions C59_shift_rapidity.
Print Assumptions C59_shift_rapidity_each.
Print Assumptions C59_compose_inverse.
Print Assumptions C60_shift_phi.
Print Assumptions C60_shift_phi_each.
Print Assumptions C60_compose_inverse.
Print Assumptions C61_shift_eta_experimental.
Print Assumptions C62_shift_eta_is_boost.
Print Assumptions C62_exact_outcome.
Print Assumptions C63_shift_eta_warns_refuted.
Print Assumptions C63_warning_exact_partial.
Print Assumptions C90_shift_eta_misses_refuted.
Print Assumptions C90_massless_partial.
