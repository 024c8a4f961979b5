(** C133 - C137: degenerate kinematics in shift_eta, weighted_centroid, parton_hadron_distance,
    centroid_prune and arg_closest. *)
From Verif Require Import Prelude Keys SpecReal SpecDist SpecMatrix SpecEdge SpecAssign RealBase Kinem KinemProofs Par DeltaR DeltaRProofs P_Kinem P_DeltaR Coords P_Coords Assign AssignProofs P_Assign Matrix P_Matrix P_Edge.
Open Scope R_scope.

(** ** C133: shift_eta *)
Lemma pt_zero p : pt_sq p = 0 -> pt p = 0.
Proof. intros H. unfold pt. fold (pt_sq p). rewrite H. apply sqrt_0. Qed.
Lemma eta_not_fin p : pt_sq p = 0 -> forall x, eta p <> Fin x.
Proof. intros H x E. pose proof (C131_pseudorapidity p) as Q. rewrite E in Q. inversion Q. lra. Qed.
Lemma esinh_zero p d : pt_sq p = 0 -> esinh_times (pt p) (eadd (eta p) (Fin d)) = NaN.
Proof.
  intros H. rewrite (pt_zero p H). pose proof (eta_not_fin p H) as N. destruct (eta p) as [x| | |]; [exfalso; eapply N; reflexivity| | |]; cbn; try reflexivity;
    destruct (Req_EM_T 0 0); try reflexivity; contradiction.
Qed.
(** With experimental=True a particle along the beam, or at rest, gets z = NaN. *)
Theorem C133_experimental_beam : forall s l l' i p, shift_eta_exp s l = Ok l' -> nth_error l i = Some p -> pt_sq p = 0 ->
  nth_error l' i = Some (EMom 0 0 NaN NaN).
Proof.
  intros s l l' i p H Hp P0. unfold shift_eta_exp in H. destruct (spread (length l) s) as [ds|e] eqn:E; [|discriminate]. cbn [bind] in H. injection H as <-.
  pose proof (spread_length _ _ _ E) as L. rewrite map2_nth, Hp. destruct (nth_error ds i) as [d|] eqn:Ed.
  - unfold shift_eta_one. rewrite (esinh_zero p d P0). destruct (pt_sq_zero p P0) as (-> & ->). reflexivity.
  - apply nth_error_None in Ed. assert (i < length l)%nat by (apply nth_error_Some; congruence). lia.
Qed.
(** A wrong number of shifts is refused by all three shifting methods; one shift is used for all. *)
Theorem C133_wrong_length : forall ds l, length ds <> length l -> length ds <> 1%nat ->
  shift_rapidity (Each ds) l = Err ValueError /\ shift_phi (Each ds) l = Err ValueError /\ shift_eta_exp (Each ds) l = Err ValueError.
Proof.
  intros ds l H H1. assert (S : spread (length l) (Each ds) = Err ValueError).
  { unfold spread. destruct ds as [|x [|y ds]]; [| cbn in H1; congruence |]; apply Nat.eqb_neq in H; rewrite H; reflexivity. }
  unfold shift_rapidity, shift_phi, shift_eta_exp. rewrite S. repeat split; reflexivity.
Qed.
Theorem C133_one_shift : forall d l, shift_rapidity (Each [d]) l = shift_rapidity (Scalar d) l /\ shift_phi (Each [d]) l = shift_phi (Scalar d) l /\
  shift_eta_exp (Each [d]) l = shift_eta_exp (Scalar d) l.
Proof. intros. repeat split; reflexivity. Qed.
(** Total momentum along the beam: nothing moves, and no warning. *)
Theorem C133_beam_total : forall s n tol l, let T := msum l in pt_sq T = 0 -> pz T <> 0 ->
  shift_eta s (S n) tol l = EtaOut l false /\ shift_eta s 0 tol l = EtaOut l true.
Proof.
  intros s n tol l T H0 HZ. split; [|reflexivity]. unfold shift_eta, resultant_rap. fold T. cbn [eta_loop].
  assert (E : eta T = PInf \/ eta T = NInf) by (pose proof (C131_pseudorapidity T) as Q; destruct Q; auto; lra).
  destruct E as [-> | ->]; reflexivity.
Qed.
(** No total momentum at all: the result is not finite. *)
Theorem C133_rest_total : forall s n tol l, let T := msum l in pt_sq T = 0 -> pz T = 0 -> shift_eta s (S n) tol l = NonFinite.
Proof.
  intros s n tol l T H0 HZ. unfold shift_eta, resultant_rap. fold T. cbn [eta_loop].
  assert (E : eta T = NaN) by (pose proof (C131_pseudorapidity T) as Q; destruct Q; auto; lra).
  rewrite E. cbn [eadd isclose]. unfold esub. destruct (eopp _); reflexivity.
Qed.
(** Total momentum with a direction but no finite rapidity (massless within tolerance, or space-like):
    any real shift gives a result that is not finite. *)
Theorem C133_offshell_total : forall s n tol l v, let T := msum l in 0 <= tol -> 0 < pt_sq T -> rap_is T v -> (forall x, v <> Fin x) -> tol < Rabs s ->
  shift_eta s (S n) tol l = NonFinite.
Proof.
  intros s n tol l v T Ht HP Hv NF HS. unfold shift_eta. unfold resultant_rap at 1 2. fold T. cbn [eta_loop]. rewrite (eta_fin T HP). cbn [eadd].
  assert (IC : isclose (Fin (pseudo_rap T)) (Fin (pseudo_rap T + s)) tol = false).
  { destruct (isclose _ _ _) eqn:E; [|reflexivity]. apply isclose_fin in E; [|exact Ht]. replace (pseudo_rap T - (pseudo_rap T + s)) with (- s) in E by ring. rewrite Rabs_Ropp in E. lra. }
  rewrite IC. unfold resultant_rap. fold T. rewrite (C131_rapidity_unique _ _ _ (C131_rapidity T) Hv).
  destruct v as [x| | |]; [exfalso; eapply NF; reflexivity| | |]; reflexivity.
Qed.
Example C133_demo : (pt_sq (msum [Mom 1 0 2 3; Mom (-1) 0 2 3]) = 0 /\ pz (msum [Mom 1 0 2 3; Mom (-1) 0 2 3]) <> 0) /\
  (0 < pt_sq (msum [Mom 1 0 2 2; Mom 1 0 0 0]) /\ rap_is (msum [Mom 1 0 2 2; Mom 1 0 0 0]) PInf).
Proof.
  unfold pt_sq. cbn [msum madd px py pz en mzero]. split; [split; [lra|intros E0; lra]|]. split; [lra|]. apply rap_cone_fwd; cbn [msum madd px py pz en mzero]; [|lra].
  replace (2 + (0 + 0)) with 2 by ring; rewrite (Rabs_pos_eq 2) by lra. replace (2 - 2) with 0 by ring. rewrite Rabs_R0. unfold cone_tol. lra.
Qed.

(** ** C134: weighted_centroid *)
Lemma esum_cons_acc l a : fold_left eadd l a = eadd a (fold_left eadd l (Fin 0)).
Proof.
  revert a. induction l as [|x l IH]; intros a; cbn [fold_left].
  - destruct a; cbn; try reflexivity. f_equal. ring.
  - rewrite (IH (eadd a x)), (IH (eadd (Fin 0) x)). generalize (fold_left eadd l (Fin 0)). intros e. destruct a, x, e; cbn; try reflexivity; f_equal; ring.
Qed.
Lemma esum_cons x l : esum (x :: l) = eadd x (esum l).
Proof. unfold esum. cbn [fold_left]. rewrite esum_cons_acc. destruct x; cbn [eadd]; try (destruct (fold_left eadd l (Fin 0)); reflexivity). rewrite Rplus_0_l. reflexivity. Qed.
Lemma eadd_nan a : eadd a NaN = NaN.
Proof. destruct a; reflexivity. Qed.
Lemma esum_nan l : In NaN l -> esum l = NaN.
Proof. induction l as [|x l IH]; intros H; [destruct H|]. rewrite esum_cons. destruct H as [->|H]; [reflexivity|]. rewrite IH by exact H. apply eadd_nan. Qed.

(** A particle with no transverse momentum carries no weight, but makes both coordinates NaN. *)
Theorem C134_beam_particle_refuted : forall l p, In p l -> pt_sq p = 0 -> weighted_centroid eta l = (NaN, NaN).
Proof.
  intros l p Hp P0. unfold weighted_centroid. rewrite !esum_nan; [reflexivity| |].
  - apply in_map_iff. exists p. split; [|exact Hp]. unfold phi. rewrite (pt_zero p P0), Rabs_R0. destruct (Rle_dec 0 ZERO_TOL) as [|N]; [reflexivity|]. exfalso. apply N. unfold ZERO_TOL. lra.
  - apply in_map_iff. exists p. split; [|exact Hp]. rewrite (pt_zero p P0). pose proof (eta_not_fin p P0) as N. destruct (eta p) as [x| | |]; [exfalso; eapply N; reflexivity| | |]; cbn; try reflexivity; destruct (Req_EM_T 0 0); try reflexivity; contradiction.
Qed.
(** The azimuth is lost as soon as one particle is below the tolerance, whatever the rapidity used. *)
Theorem C134_soft_particle_refuted : forall rap l p, In p l -> pt p <= ZERO_TOL -> snd (weighted_centroid rap l) = NaN.
Proof.
  intros rap l p Hp P0. unfold weighted_centroid. cbn [snd]. rewrite esum_nan; [reflexivity|]. apply in_map_iff. exists p. split; [|exact Hp].
  unfold phi. rewrite Rabs_pos_eq by apply pt_ge. destruct (Rle_dec (pt p) ZERO_TOL); [reflexivity|contradiction].
Qed.
(** The true rapidity of a massive particle along the beam is finite, and drops out as it should. *)
Theorem C134_massive_beam_partial : forall l1 p l2, pt_sq p = 0 -> cone_tol < en p - Rabs (pz p) ->
  fst (weighted_centroid (rapidity ZERO_TOL) (l1 ++ p :: l2)) = fst (weighted_centroid (rapidity ZERO_TOL) (l1 ++ l2)).
Proof.
  intros l1 p l2 P0 PE. unfold weighted_centroid. cbn [fst].
  assert (A : rsum (map pt (l1 ++ p :: l2)) = rsum (map pt (l1 ++ l2))) by (induction l1 as [|q l1 IH]; cbn; [rewrite (pt_zero p P0); ring|rewrite IH; ring]).
  assert (B : esum (map (fun p => emul (rapidity ZERO_TOL p) (pt p)) (l1 ++ p :: l2)) = esum (map (fun p => emul (rapidity ZERO_TOL p) (pt p)) (l1 ++ l2))).
  { clear A. induction l1 as [|q l1 IH]; cbn [app map]; rewrite ?esum_cons; [|rewrite IH; reflexivity]. rewrite rapidity_fin by (try exact PE; unfold ZERO_TOL; lra). rewrite (pt_zero p P0). cbn [emul]. rewrite Rmult_0_r.
    destruct (esum _); cbn; try reflexivity. rewrite Rplus_0_l. reflexivity. }
  rewrite A, B. reflexivity.
Qed.
(** Nothing to weigh: undefined. *)
Theorem C134_no_weight : forall rap l, rsum (map pt l) = 0 -> weighted_centroid rap l = (NaN, NaN).
Proof.
  intros rap l HS. assert (Z : forall p, In p l -> pt p = 0).
  { revert HS. induction l as [|q l IH]; intros HS p Hp; [destruct Hp|]. cbn in HS. assert (G : 0 <= rsum (map pt l)) by (clear; induction l as [|x l IH]; cbn; [lra|pose proof (pt_ge x); lra]). pose proof (pt_ge q).
    destruct Hp as [<-|Hp]; [lra|]. apply IH; [lra|exact Hp]. }
  assert (K : forall f : mom -> ext, ediv (esum (map (fun p => emul (f p) (pt p)) l)) 0 = NaN).
  { intros f. assert (S : esum (map (fun p => emul (f p) (pt p)) l) = Fin 0 \/ esum (map (fun p => emul (f p) (pt p)) l) = NaN).
    { clear HS. induction l as [|q l IH]; [left; reflexivity|]. cbn [map]. rewrite esum_cons. rewrite (Z q (or_introl eq_refl)).
      assert (Q : emul (f q) 0 = Fin 0 \/ emul (f q) 0 = NaN) by (destruct (f q); cbn; [left; f_equal; ring|..]; try (destruct (Req_EM_T 0 0); [auto|contradiction]); auto).
      destruct IH as [-> | ->]; [intros p Hp; apply Z; right; exact Hp| |right; apply eadd_nan]. destruct Q as [-> | ->]; cbn; [left; f_equal; ring|right; reflexivity]. }
    destruct S as [-> | ->]; cbn; [|reflexivity]. destruct (Req_EM_T 0 0); [|contradiction]. destruct (Rlt_dec 0 0); [lra|reflexivity]. }
  unfold weighted_centroid. rewrite HS, !K. reflexivity.
Qed.
(** Forward particles on the light cone put the centroid at infinity. *)
Theorem C134_infinite : forall rap l p, In p l -> rap p = PInf -> (forall q, In q l -> 0 < pt p /\ 0 < pt q /\ (rap q = PInf \/ exists x, rap q = Fin x)) ->
  fst (weighted_centroid rap l) = PInf.
Proof.
  intros rap l p Hp HI HA. unfold weighted_centroid. cbn [fst].
  assert (K : forall l, (forall q, In q l -> 0 < pt p /\ 0 < pt q /\ (rap q = PInf \/ exists x, rap q = Fin x)) ->
    (esum (map (fun p => emul (rap p) (pt p)) l) = PInf \/ exists x, esum (map (fun p => emul (rap p) (pt p)) l) = Fin x) /\
    (In p l -> esum (map (fun p => emul (rap p) (pt p)) l) = PInf)).
  { clear l Hp HA. induction l as [|q l IH]; intros HA; [split; [right; exists 0; reflexivity|intros []]|]. cbn [map]. rewrite !esum_cons.
    destruct (IH (fun x Hx => HA x (or_intror Hx))) as (I1 & I2). destruct (HA q (or_introl eq_refl)) as (_ & HQ & Hr).
    assert (E : emul PInf (pt q) = PInf) by (cbn; destruct (Req_EM_T (pt q) 0); [lra|reflexivity]). split.
    - destruct Hr as [-> | (x & ->)]; [rewrite E; left; destruct I1 as [-> | (y & ->)]; reflexivity|]. cbn [emul]. destruct I1 as [-> | (y & ->)]; [left; reflexivity|right; eexists; reflexivity].
    - intros [->|H]; [rewrite HI, E; destruct I1 as [-> | (y & ->)]; reflexivity|]. rewrite (I2 H). destruct Hr as [-> | (x & ->)]; [rewrite E|]; reflexivity. }
  rewrite (proj2 (K l HA) Hp). reflexivity.
Qed.
Example C134_demo : weighted_centroid eta [Mom 3 4 0 9; Mom 0 0 1 1] = (NaN, NaN) /\ cone_tol < en (Mom 0 0 1 2) - Rabs (pz (Mom 0 0 1 2)).
Proof.
  split; [apply (C134_beam_particle_refuted _ (Mom 0 0 1 1)); [cbn; auto|unfold pt_sq; cbn [px py]; lra]|]. cbn [pz en]. rewrite Rabs_pos_eq by lra. unfold cone_tol. lra.
Qed.

(** ** C135: parton_hadron_distance with a parton along the beam *)
Theorem C135_beam_parton : forall same partons hadrons e out D i j p d, (same = true -> hadrons = partons) ->
  parton_hadron_distance same partons hadrons e out -> delta_R_call same true partons hadrons D ->
  nth_error partons i = Some p -> pt_sq p = 0 -> at2 D i j = Some d ->
  (e = 0 -> at2 out i j = Some d) /\
  (e < 0 -> at2 out i j = Some (match d with Fin x => if Req_EM_T x 0 then NaN else PInf | _ => PInf end)) /\
  (0 < e -> at2 out i j = Some (match d with Fin x => Fin 0 | _ => NaN end)).
Proof.
  intros same partons hadrons e out D i j p d HS HO HD Hp P0 Hd. rewrite (phd_at _ _ _ _ _ _ _ HS HO). apply call_result in HD; [|exact HS]. subst D. cbn [rap_of] in Hd.
  rewrite delta_R_at, Hp in Hd. rewrite Hp. destruct (nth_error hadrons j) as [q|]; [|discriminate]. injection Hd as Hd. rewrite Hd.
  pose proof (entry_nonneg eta p q) as NN. rewrite Hd in NN. rewrite (pt_zero p P0).
  assert (W : np_power 0 e = if Req_EM_T e 0 then Fin 1 else if Rlt_dec e 0 then PInf else Fin 0) by (unfold np_power; destruct (Rlt_dec 0 0); [lra|reflexivity]).
  rewrite W. split; [|split]; intros HE.
  - destruct (Req_EM_T e 0); [|contradiction]. rewrite emul2_one. reflexivity.
  - destruct (Req_EM_T e 0); [lra|]. destruct (Rlt_dec e 0); [|contradiction]. f_equal. destruct d as [x| | |]; try contradiction; cbn [emul2]; [|reflexivity].
    cbn [ext_nonneg] in NN. destruct (Req_EM_T x 0); [reflexivity|]. destruct (Rlt_dec 0 x); [reflexivity|lra].
  - destruct (Req_EM_T e 0); [lra|]. destruct (Rlt_dec e 0); [lra|]. f_equal. destruct d as [x| | |]; try contradiction; cbn [emul2 emul]; [f_equal; ring|]. destruct (Req_EM_T 0 0); [reflexivity|contradiction].
Qed.
Example C135_demo : exists out D, parton_hadron_distance false [Mom 0 0 1 2] [Mom 1 0 2 9] (-1) out /\ delta_R_call false true [Mom 0 0 1 2] [Mom 1 0 2 9] D /\ pt_sq (Mom 0 0 1 2) = 0.
Proof. destruct (call_exists false true [Mom 0 0 1 2] [Mom 1 0 2 9]) as (D & HD). eexists. exists D. split; [exists D; split; [exact HD|reflexivity]|]. split; [exact HD|]. unfold pt_sq; cbn [px py]; ring. Qed.

(** ** C136: centroid_prune about a centre that is not finite keeps nothing *)
Theorem C136_infinite_centre : forall l radius mask ce cf out, (forall e f, (ce, cf) <> (Fin e, Fin f)) ->
  centroid_prune l radius mask (Some (ce, cf)) = Ok out -> forall b, In b out -> b = false.
Proof.
  intros l radius mask ce cf out NF H. unfold centroid_prune in H. destruct (match mask with None => Ok l | Some m => getkey l (KMask m) end) as [sel|] eqn:ES; [|discriminate]. cbn [bind] in H. injection H as <-.
  assert (Z : map (fun p => below (prune_dist ce cf p) radius) sel = map (fun _ => false) sel).
  { apply map_ext. intros p. destruct cf as [f| | |]; [|apply prune_nan; auto..]. destruct ce as [e| | |]; [exfalso; eapply NF; reflexivity|..]; unfold prune_dist; destruct (eta p); reflexivity. }
  rewrite Z. assert (HV : forall b, In b (map (fun _ : mom => false) sel) -> b = false) by (intros b Hb; apply in_map_iff in Hb as (x & <- & _); reflexivity).
  destruct mask as [m|]; [|exact HV]. revert HV. generalize (map (fun _ : mom => false) sel). clear. induction m as [|[|] m IH]; intros v HV b Hb; [destruct Hb| |].
  - destruct v as [|x v]; destruct Hb as [<-|Hb]; try reflexivity; [eapply IH; [|exact Hb]; intros y []|apply HV; left; reflexivity|eapply IH; [|exact Hb]; intros y Hy; apply HV; right; exact Hy].
  - destruct Hb as [<-|Hb]; [reflexivity|]. eapply IH; eauto.
Qed.
Example C136_demo : exists out, centroid_prune [Mom 3 4 0 9] 1 None (Some (PInf, Fin 0)) = Ok out.
Proof. eexists. reflexivity. Qed.

(** ** C137: arg_closest with an infinite distance *)
Theorem C137_infinite_distance : forall deg same focus cand s out s' sm D i j,
  (same = true -> cand = focus) -> (sm = true -> cand = focus) -> caches_ok same focus cand s ->
  delta_R_call sm false focus cand D -> at2 D i j = Some PInf ->
  variance (map (fun q => sqrt (pt_sq q)) cand) <> 0 ->
  arg_closest deg same focus cand s out s' -> out = Err ValueError.
Proof.
  intros deg same focus cand s out s' sm D i j HS HM HC HD Hij VP H.
  apply call_result in HD; [|exact HM]. subst D. cbn [rap_of] in Hij. rewrite delta_R_at in Hij.
  destruct (nth_error focus i) as [p|] eqn:Ep; [|discriminate]. destruct (nth_error cand j) as [q|] eqn:Eq; [|discriminate]. injection Hij as Hij.
  destruct (arg_closest_inv _ _ _ _ _ _ _ HS HC H) as (ac & h & cf & _ & _ & _ & _ & Q). cbv zeta in Q.
  destruct (Req_EM_T (np_var (map pt cand)) 0) as [E|_]; [exfalso; rewrite np_var_variance in E; exact (VP E)|].
  destruct Q as (_ & r & HL & ->). unfold linear_sum_assignment in HL.
  assert (LI : (i < length focus)%nat) by (apply nth_error_Some; congruence). assert (LJ : (j < length cand)%nat) by (apply nth_error_Some; congruence).
  set (y1 := map (rapidity ZERO_TOL) focus) in *. set (y2 := map (rapidity ZERO_TOL) cand) in *.
  assert (DI : dist_at y1 y2 focus cand i j = PInf).
  { rewrite <- Hij. apply dist_at_entry; assumption. }
  assert (EV : evar (map (dist_at y1 y2 focus cand i) (seq 0 (length cand))) = NaN).
  { unfold evar. destruct (forallb is_fin _) eqn:F; [|reflexivity]. rewrite forallb_forall in F. specialize (F PInf). cbn in F. discriminate F. apply in_map_iff. exists j. split; [exact DI|apply in_seq; lia]. }
  destruct (forallb (forallb is_fin) _) eqn:F; [|subst r; reflexivity]. exfalso. rewrite forallb_forall in F. unfold cost_matrix in F.
  match type of F with forall x, In x (map ?g _) -> _ => specialize (F (g i) (in_map g _ i (proj2 (in_seq _ _ _) (conj (Nat.le_0_l i) LI)))) end. cbv beta in F. rewrite EV in F. rewrite forallb_forall in F.
  match type of F with forall x, In x (map ?g _) -> _ => specialize (F (g j) (in_map g _ j (proj2 (in_seq _ _ _) (conj (Nat.le_0_l j) LJ)))) end. cbv beta in F. cbn in F. discriminate.
Qed.
Example C137_demo : exists D, delta_R_call false false [Mom 0 0 5 5] [Mom 1 0 0 2; Mom 2 0 0 3] D /\ at2 D 0 0 = Some PInf /\
  variance (map (fun q => sqrt (pt_sq q)) [Mom 1 0 0 2; Mom 2 0 0 3]) <> 0.
Proof.
  destruct (call_exists false false [Mom 0 0 5 5] [Mom 1 0 0 2; Mom 2 0 0 3]) as (D & HD). exists D. split; [exact HD|]. split.
  - assert (C1 : coord_is false (Mom 0 0 5 5) PInf) by (apply rap_cone_fwd; cbn [en pz]; [rewrite (Rabs_pos_eq 5) by lra; replace (5 - 5) with 0 by ring; rewrite Rabs_R0; unfold cone_tol; lra|lra]).
    assert (C2 : coord_is false (Mom 1 0 0 2) (Fin (true_rap (Mom 1 0 0 2)))) by (apply rap_timelike; cbn [en pz]; rewrite Rabs_R0; unfold cone_tol; lra).
    rewrite (C132_any_pair false false _ _ D 0 0 _ _ _ _ 0 ltac:(discriminate) HD eq_refl eq_refl C1 C2); [reflexivity|]. right. split; [left; unfold pt_sq; cbn [px py]; ring|reflexivity].
  - unfold variance, mean, pt_sq. cbn [map px py rsum length INR]. replace (1 * 1 + 0 * 0) with 1 by ring. replace (2 * 2 + 0 * 0) with (2 * 2) by ring. rewrite sqrt_1, sqrt_square by lra. lra.
Qed.

Print Assumptions C133_experimental_beam.
Print Assumptions C133_wrong_length.
Print Assumptions C133_one_shift.
Print Assumptions C133_beam_total.
Print Assumptions C133_rest_total.
Print Assumptions C133_offshell_total.
Print Assumptions C134_beam_particle_refuted.
Print Assumptions C134_soft_particle_refuted.
Print Assumptions C134_massive_beam_partial.
Print Assumptions C134_no_weight.
Print Assumptions C134_infinite.
Print Assumptions C135_beam_parton.
Print Assumptions C136_infinite_centre.
Print Assumptions C137_infinite_distance.
