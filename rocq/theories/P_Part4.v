(** C211-C213: the partition depends on the distances only through the order in which they put the partons; turning and rescaling the event; boosting it. *)
From Coq Require Import Classical Reals Lra.
From Verif Require Import Prelude Dict Keys MaskTypes SpecMask Mask MaskProofs SpecReal SpecDist SpecEdge SpecAdj SpecArray SpecPart Adjacency Descend Partition PartProofs P_Part P_Part2 P_Equiv RealBase Kinem KinemProofs DeltaR DeltaRProofs P_DeltaR Matrix P_Matrix P_Edge PartDist SpecPartDist P_Part3 P_Kinem P_IRC.
From Verif Require Import SpecPartOrder.
Open Scope nat_scope.

Lemma nearest_alike {P D P' D'} (dist : P -> P -> D) lt (pmu : list P) (dist' : P' -> P' -> D') lt' (pmu' : list P') n es status final v i k :
  length es = n -> length final = n -> length pmu' = n -> order_alike dist lt pmu dist' lt' pmu' es status final -> hadron_vertex es status v -> final_desc es final v i -> length pmu = n ->
  SpecPart.nearest dist lt es pmu v i k -> SpecPart.nearest dist' lt' es pmu' v i k.
Proof.
  intros L1 L3 L' OA HV FD L (I & p & h & Hp & Hh & M). assert (KL : forall e, incident es v e -> exists q, nth_error pmu' e = Some q).
  { intros e (a & He). destruct (nth_error pmu' e) eqn:E; [eauto|]. apply nth_error_None in E. assert (e < length es) by (apply nth_error_Some; congruence). lia. }
  destruct (KL k I) as (q & Hq). destruct (nth_error pmu' i) as [g|] eqn:Hg. 2: { apply nth_error_None in Hg. assert (i < length pmu) by (apply nth_error_Some; congruence). lia. }
  split; [exact I|]. exists q, g. split; [exact Hq|]. split; [exact Hg|]. intros k' q' I' Hq'.
  assert (exists p', nth_error pmu k' = Some p') as (p' & Hp'). { destruct (nth_error pmu k') eqn:E; [eauto|]. apply nth_error_None in E. assert (k' < length pmu') by (apply nth_error_Some; congruence). lia. }
  destruct (M k' p' I' Hp') as (M1 & M2).
  rewrite <- (OA v i k' k p' p h q' q g), <- (OA v i k k' p p' h q q' g) by assumption. auto.
Qed.

(** C211 *)
Theorem C211_order_only : forall P D P' D' (dist : P -> P -> D) lt (pmu : list P) (dist' : P' -> P' -> D') lt' (pmu' : list P') n es status final agg kids,
  weak_order lt -> weak_order lt' -> event_ok n es status final pmu -> length pmu' = n -> branches_ok n kids ->
  order_alike dist lt pmu dist' lt' pmu' es status final ->
  exists h, partition_descendants dist lt es status final pmu (MGrp agg kids) = Ok h /\ partition_descendants dist' lt' es status final pmu' (MGrp agg kids) = Ok h.
Proof.
  intros P D P' D' dist lt pmu dist' lt' pmu' n es status final agg kids HW HW' HE L' (Hne & Hag) OA.
  pose proof HE as (L1 & L2 & L3 & L4 & HS & HD & HFi).
  assert (HE' : event_ok n es status final pmu') by (split; [exact L1|split; [exact L2|split; [exact L3|split; [exact L'|split; [exact HS|split; [exact HD|exact HFi]]]]]]).
  destruct (partition_ok dist lt HW n es status final pmu L1 L2 L3 L4 HS HD HFi agg kids Hne Hag) as (k1 & E1 & T1).
  destruct (partition_ok dist' lt' HW' n es status final pmu' L1 L2 L3 L' HS HD HFi agg kids Hne Hag) as (k2 & E2 & T2).
  exists (MGrp agg k1). split; [exact E1|]. rewrite E2. f_equal. f_equal.
  assert (DET : forall m x y, lw (Inv dist lt n es final pmu (selected es status kids)) m x -> lw (Inv dist' lt' n es final pmu' (selected es status kids)) m y -> x = y).
  { apply lw_det. intros d a b (_ & A) (_ & B).
    assert (B' : partitioned dist lt es final pmu (selected es status kids) d b).
    { destruct B as (B0 & B1 & B2). split; [exact B0|]. split; [|exact B2]. intros v i e S T Fd Ne. apply (B1 v i e S T Fd). eapply nearest_alike; try eassumption. apply S. }
    exact (partitioned_det dist lt n es status final pmu kids d a b HW HE A B'). }
  unfold top in *. clear - T1 T2 DET. revert DET T1 T2. generalize (Inv dist lt n es final pmu (selected es status kids)) (Inv dist' lt' n es final pmu' (selected es status kids)).
  intros R1 R2 DET T1 T2. revert k2 T2. induction T1 as [|p q r r' (Ek & Hl) _ IH]; intros k2 T2; inversion T2 as [|? q2 ? r2 (Ek2 & Hl2) T2']; subst; [reflexivity|].
  f_equal; [|apply IH; assumption]. destruct q, q2. cbn in *. subst. f_equal. symmetry. eapply DET; eassumption.
Qed.

Open Scope R_scope.
Lemma entries_alike (dist dist' : mom -> mom -> ext) (f : mom -> mom) pmu es status final :
  (forall p1 p2 h, In p1 pmu -> In p2 pmu -> In h pmu -> argmin_lt (dist p1 h) (dist p2 h) = argmin_lt (dist' (f p1) (f h)) (dist' (f p2) (f h))) ->
  order_alike dist argmin_lt pmu dist' argmin_lt (map f pmu) es status final.
Proof.
  intros H v i k1 k2 p1 p2 h q1 q2 g _ _ _ _ H1 H2 H3. rewrite !nth_error_map', H1, H2, H3. intros E1 E2 E3; injection E1 as <-; injection E2 as <-; injection E3 as <-.
  apply H; eapply nth_error_In; eassumption.
Qed.
Lemma same_partition e f n es status final pmu agg kids : SpecPart.event_ok n es status final pmu -> branches_ok n kids ->
  (forall p1 p2 h, In p1 pmu -> In p2 pmu -> In h pmu -> argmin_lt (phd_entry e p1 h) (phd_entry e p2 h) = argmin_lt (phd_entry e (f p1) (f h)) (phd_entry e (f p2) (f h))) ->
  exists h, partition_event e es status final pmu (MGrp agg kids) = Ok h /\ partition_event e es status final (map f pmu) (MGrp agg kids) = Ok h.
Proof.
  intros HE HB H. unfold partition_event. eapply C211_order_only; [exact argmin_weak|exact argmin_weak|exact HE|rewrite map_length; apply HE|exact HB|]. apply entries_alike, H.
Qed.

(** C212: turning the event about the beam. *)
Theorem C212_turned : forall e a n es status final pmu pmu' agg kids, SpecPart.event_ok n es status final pmu -> branches_ok n kids -> shift_phi (Scalar a) pmu = Ok pmu' ->
  exists h, partition_event e es status final pmu (MGrp agg kids) = Ok h /\ partition_event e es status final pmu' (MGrp agg kids) = Ok h.
Proof.
  intros e a n es status final pmu pmu' agg kids HE HB HS. unfold shift_phi, spread in HS. cbn [bind] in HS. rewrite map2_repeat in HS. injection HS as <-.
  apply (same_partition e _ n); [exact HE|exact HB|]. intros p1 p2 h _ _ _. assert (R : forall p, phd_entry e (rotate a p) (rotate a h) = phd_entry e p h) by (intros p; unfold phd_entry; rewrite rotate_pt; f_equal; exact (rotate_entry true a p h)).
  rewrite !R. reflexivity.
Qed.

(** The units of momentum. *)
Lemma lt_scale c x y : 0 < c -> argmin_lt (emul2 (Fin c) x) (emul2 (Fin c) y) = argmin_lt x y.
Proof.
  intros C. assert (I : forall (T : Type) (u v : T), (if Req_EM_T c 0 then u else v) = v) by (intros; destruct (Req_EM_T c 0); [lra|reflexivity]).
  unfold emul2. destruct x as [x| | |], y as [y| | |]; unfold emul; rewrite ?I; unfold argmin_lt; try reflexivity.
  destruct (Rlt_dec (x * c) (y * c)) as [L|L], (Rlt_dec x y) as [M|M]; try reflexivity; exfalso; [apply M, (Rmult_lt_reg_r c); assumption | apply L, Rmult_lt_compat_r; assumption].
Qed.
Lemma gap_scale c p q : 0 < c -> delta_phi (mscale c p) (mscale c q) = delta_phi p q.
Proof.
  intros Hc. rewrite delta_phi_scale by exact Hc. unfold delta_phi, mscale. cbn [px py]. rewrite <- (atan2_scale c (py p * px q - px p * py q)) by exact Hc. f_equal; ring.
Qed.
Lemma entry_units e c p h : 0 < c -> phd_entry e (mscale c p) (mscale c h) = emul2 (Fin (Rpower c e)) (phd_entry e p h).
Proof.
  intros C. unfold phd_entry, delta_entry. rewrite !eta_scale, gap_scale, pt_scale by exact C. set (d := ehypot _ _). clearbody d. assert (RC : 0 < Rpower c e) by apply exp_pos.
  assert (P0 : 0 <= pt p) by apply sqrt_pos. unfold np_power. destruct (Rlt_dec 0 (pt p)) as [P|P].
  - destruct (Rlt_dec 0 (c * pt p)) as [_|N]; [|exfalso; apply N, Rmult_lt_0_compat; assumption]. rewrite <- Rpower_mult_distr by assumption. assert (RP : 0 < Rpower (pt p) e) by apply exp_pos.
    assert (0 < Rpower c e * Rpower (pt p) e) by (apply Rmult_lt_0_compat; assumption).
    destruct d as [y| | |]; cbn [emul2 emul]; try reflexivity; [f_equal; ring| |];
      destruct (Req_EM_T (Rpower c e * Rpower (pt p) e) 0); try lra; destruct (Req_EM_T (Rpower (pt p) e) 0); try lra; cbn [emul]; destruct (Req_EM_T (Rpower c e) 0); try lra; reflexivity.
  - assert (pt p = 0) as -> by lra. rewrite Rmult_0_r. destruct (Rlt_dec 0 0); [lra|]. destruct (Req_EM_T e 0) as [->|NE].
    + rewrite Rpower_O by exact C. destruct d as [y| | |]; cbn [emul2 emul]; try reflexivity; [f_equal; ring| |]; destruct (Req_EM_T 1 0); try lra; cbn [emul]; destruct (Req_EM_T 1 0); try lra; reflexivity.
    + destruct (Rlt_dec e 0).
      * destruct d as [y| | |]; cbn [emul2 emul]; try reflexivity; [destruct (Req_EM_T y 0); [|destruct (Rlt_dec 0 y)]| |]; cbn [emul]; destruct (Req_EM_T (Rpower c e) 0); try lra; reflexivity.
      * destruct d as [y| | |]; cbn [emul2 emul]; try reflexivity; [f_equal; ring| |]; destruct (Req_EM_T 0 0); try lra; reflexivity.
Qed.
Theorem C212_units : forall e c n es status final pmu agg kids, 0 < c -> SpecPart.event_ok n es status final pmu -> branches_ok n kids ->
  exists h, partition_event e es status final pmu (MGrp agg kids) = Ok h /\ partition_event e es status final (map (mscale c) pmu) (MGrp agg kids) = Ok h.
Proof.
  intros e c n es status final pmu agg kids C HE HB. apply (same_partition e _ n); [exact HE|exact HB|]. intros p1 p2 h _ _ _. rewrite !entry_units by exact C. symmetry. apply lt_scale, exp_pos.
Qed.
(** The magnitudes of the hadrons do not matter: each may be rescaled by its own factor, the partons kept. *)
Theorem C212_hadron_magnitudes : forall e c n es status final pmu pmu' agg kids, SpecPart.event_ok n es status final pmu -> branches_ok n kids -> length pmu' = n ->
  (forall i p p', nth_error pmu i = Some p -> nth_error pmu' i = Some p' -> 0 < c i /\ p' = mscale (c i) p /\ (forall v, hadron_vertex es status v -> incident es v i -> c i = 1)) ->
  exists h, partition_event e es status final pmu (MGrp agg kids) = Ok h /\ partition_event e es status final pmu' (MGrp agg kids) = Ok h.
Proof.
  intros e c n es status final pmu pmu' agg kids HE HB L' H. unfold partition_event. eapply C211_order_only; [exact argmin_weak|exact argmin_weak|exact HE|exact L'|exact HB|].
  intros v i k1 k2 p1 p2 h q1 q2 g HV _ I1 I2 P1 P2 P3 Q1 Q2 Q3. destruct (H _ _ _ P1 Q1) as (_ & -> & O1). destruct (H _ _ _ P2 Q2) as (_ & -> & O2). destruct (H _ _ _ P3 Q3) as (C & -> & _).
  rewrite (O1 v HV I1), (O2 v HV I2). assert (M1 : forall p, mscale 1 p = p) by (intros [x y z t]; unfold mscale; cbn [px py pz en]; f_equal; ring). rewrite !M1.
  assert (R : forall p, phd_entry e p (mscale (c i) h) = phd_entry e p h).
  { intros p. unfold phd_entry, delta_entry. rewrite eta_scale by exact C. f_equal. f_equal. unfold delta_phi, mscale. cbn [px py]. rewrite <- (atan2_scale (c i) (py p * px h - px p * py h)) by exact C. f_equal; ring. }
  rewrite !R. reflexivity.
Qed.

(** * C213: boosting the event along the beam *)
Definition C213_full : Prop := forall e d n es status final pmu pmu' agg kids, SpecPart.event_ok n es status final pmu -> branches_ok n kids -> (forall p, In p pmu -> 0 < pt_sq p /\ sqrt (p_sq p) <= en p) ->
  shift_rapidity (Scalar d) pmu = Ok pmu' -> exists h, partition_event e es status final pmu (MGrp agg kids) = Ok h /\ partition_event e es status final pmu' (MGrp agg kids) = Ok h.

Lemma massless_rap p : 0 < pt_sq p -> en p = sqrt (p_sq p) -> Rabs (pz p) < en p /\ true_rap p = pseudo_rap p.
Proof.
  intros P E. split; [|unfold true_rap, pseudo_rap; rewrite E; reflexivity]. rewrite E. rewrite <- (sqrt_square (Rabs (pz p))) by apply Rabs_pos. rewrite <- Rabs_mult, Rabs_pos_eq by nra.
  apply sqrt_lt_1; unfold p_sq, pt_sq in *; nra.
Qed.
Lemma massless_boost d p : 0 < pt_sq p -> en p = sqrt (p_sq p) -> eta (boost d p) = Fin (pseudo_rap p + d).
Proof.
  intros P E. destruct (massless_rap p P E) as (B & R). pose proof (boost_boosted d p) as HB. pose proof (true_rap_boost d p _ HB B) as T.
  assert (P' : 0 < pt_sq (boost d p)) by (destruct HB as (X & Y & _); unfold pt_sq in *; rewrite X, Y; exact P).
  assert (T' : Rabs (pz (boost d p)) < en (boost d p)) by (eapply boosted_timelike; [exact HB|exact B]).
  assert (M : en (boost d p) * en (boost d p) = p_sq (boost d p)).
  { pose proof (mink_boost d p p) as K. unfold mink in K. assert (Q : en p * en p = p_sq p) by (rewrite E; apply sqrt_sqrt; unfold p_sq; nra). unfold p_sq in *. lra. }
  assert (E' : en (boost d p) = sqrt (p_sq (boost d p))). { rewrite <- M. symmetry. apply sqrt_square. pose proof (Rabs_pos (pz (boost d p))). lra. }
  destruct (massless_rap _ P' E') as (_ & R'). rewrite eta_fin by exact P'. rewrite <- R', T, R. reflexivity.
Qed.
Theorem C213_massless_partial : forall e d n es status final pmu pmu' agg kids, SpecPart.event_ok n es status final pmu -> branches_ok n kids -> (forall p, In p pmu -> 0 < pt_sq p /\ en p = sqrt (p_sq p)) ->
  shift_rapidity (Scalar d) pmu = Ok pmu' -> exists h, partition_event e es status final pmu (MGrp agg kids) = Ok h /\ partition_event e es status final pmu' (MGrp agg kids) = Ok h.
Proof.
  intros e d n es status final pmu pmu' agg kids HE HB HM HS. unfold shift_rapidity, spread in HS. cbn [bind] in HS. rewrite map2_repeat in HS. injection HS as <-.
  apply (same_partition e _ n); [exact HE|exact HB|]. intros p1 p2 h H1 H2 H3.
  assert (R : forall p, In p pmu -> phd_entry e (boost d p) (boost d h) = phd_entry e p h).
  { intros p Hp. destruct (HM p Hp) as (A & B). destruct (HM h H3) as (A' & B'). unfold phd_entry. change (pt (boost d p)) with (pt p). f_equal.
    unfold delta_entry. rewrite !massless_boost, !eta_fin by assumption. change (delta_phi (boost d p) (boost d h)) with (delta_phi p h). unfold esub, eopp, eadd.
    replace (pseudo_rap p + d + - (pseudo_rap h + d)) with (pseudo_rap p + - pseudo_rap h) by ring. reflexivity. }
  rewrite (R p1 H1), (R p2 H2). reflexivity.
Qed.

(** The witness: P_Part's event; pT 1, equal azimuths, so that only the pseudorapidities ln t matter. *)
Module Witness.
  Definition on (t m : R) : mom := Mom 1 0 ((t - / t) / 2) (sqrt (1 + ((t - / t) / 2) * ((t - / t) / 2) + m * m)).
  Lemma mag t : 0 < t -> sqrt (1 + ((t - / t) / 2) * ((t - / t) / 2)) = (t + / t) / 2.
  Proof.
    intros T. assert (0 < / t) by (apply Rinv_0_lt_compat; exact T). replace (1 + (t - / t) / 2 * ((t - / t) / 2)) with ((t + / t) / 2 * ((t + / t) / 2)) by (field; lra). apply sqrt_square. lra.
  Qed.
  Lemma rap p t : 0 < t -> px p = 1 -> py p = 0 -> pz p = (t - / t) / 2 -> 0 < pt_sq p /\ eta p = Fin (ln t) /\ sqrt (p_sq p) = (t + / t) / 2 /\ pseudo_rap p = ln t.
  Proof.
    intros T X Y Z. assert (I : 0 < / t) by (apply Rinv_0_lt_compat; exact T). assert (P : 0 < pt_sq p) by (unfold pt_sq; rewrite X, Y; lra).
    assert (S : sqrt (p_sq p) = (t + / t) / 2) by (unfold p_sq; rewrite X, Y, Z, <- mag by exact T; f_equal; ring).
    assert (E : pseudo_rap p = ln t).
    { unfold pseudo_rap. rewrite S, Z. replace (((t + / t) / 2 + (t - / t) / 2) / ((t + / t) / 2 - (t - / t) / 2)) with (t * t) by (field; lra). rewrite ln_mult by exact T. lra. }
    rewrite eta_fin by exact P. rewrite E. auto.
  Qed.
  Lemma entry p h a b : px p = 1 -> py p = 0 -> px h = 1 -> py h = 0 -> eta p = Fin a -> eta h = Fin b -> phd_entry 0 p h = Fin (Rabs (a - b)).
  Proof.
    intros X Y X' Y' A B. unfold phd_entry, np_power, delta_entry, delta_phi, pt. rewrite X, Y, X', Y', A, B.
    replace (1 * 1 + 0 * 0) with 1 by ring. replace (0 * 1 - 1 * 0) with 0 by ring. rewrite sqrt_1. destruct (Rlt_dec 0 1); [|lra]. rewrite Rpower_O by lra.
    assert (Z : atan2 0 1 = 0). { unfold atan2. destruct (Rlt_dec 0 1); [|lra]. replace (0 / 1) with 0 by field. apply atan_0. } rewrite Z.
    unfold esub, eadd, eopp, ehypot, emul2, emul. f_equal. rewrite Rmult_1_r. replace ((a + - b) * (a + - b) + 0 * 0) with (Rsqr (a - b)) by (unfold Rsqr; ring). apply sqrt_Rsqr_abs.
  Qed.
  Definition p0 := on 3 0.
  Definition p1 := on (/ 4) 0.
  Definition h := Mom 1 0 0 (5 / 2).
  Definition pmu := [p0; p1; h; p1; p0].
  Definition d := - ln 2.
  Lemma on_massless t : 0 < t -> 0 < pt_sq (on t 0) /\ en (on t 0) = sqrt (p_sq (on t 0)) /\ eta (on t 0) = Fin (ln t) /\ pseudo_rap (on t 0) = ln t.
  Proof.
    intros T. destruct (rap (on t 0) t T eq_refl eq_refl eq_refl) as (A & B & C & D). split; [exact A|]. split; [|split; [exact B|exact D]]. unfold on, p_sq. cbn [px py pz en]. f_equal. ring.
  Qed.
  Lemma h_rap : eta h = Fin 0.
  Proof. destruct (rap h 1 ltac:(lra) eq_refl eq_refl) as (_ & E & _); [unfold h; cbn [pz]; field|]. rewrite E, ln_1. reflexivity. Qed.
  Lemma h_boost : eta (boost d h) = Fin (- (2 * ln 2)).
  Proof.
    assert (S : sinh d = - (3 / 4)). { unfold sinh, d. rewrite Ropp_involutive, exp_Ropp, exp_ln by lra. field. }
    assert (C : cosh d = 5 / 4). { unfold cosh, d. rewrite Ropp_involutive, exp_Ropp, exp_ln by lra. field. }
    destruct (rap (boost d h) (/ 4) ltac:(lra)) as (_ & E & _); [reflexivity|reflexivity| |rewrite E; f_equal; rewrite ln_Rinv by lra; replace 4 with (2 * 2) by ring; rewrite ln_mult by lra; ring].
    destruct (boost_boosted d h) as (_ & _ & Z & _). rewrite Z. unfold h. cbn [pz en]. rewrite ?S, ?C. field.
  Qed.
  Lemma before : argmin_lt (phd_entry 0 p0 h) (phd_entry 0 p1 h) = true.
  Proof.
    destruct (on_massless 3 ltac:(lra)) as (_ & _ & A & _). destruct (on_massless (/ 4) ltac:(lra)) as (_ & _ & B & _).
    rewrite (entry p0 h _ _ eq_refl eq_refl eq_refl eq_refl A h_rap), (entry p1 h _ _ eq_refl eq_refl eq_refl eq_refl B h_rap).
    unfold argmin_lt. destruct (Rlt_dec _ _) as [|N]; [reflexivity|]. exfalso. apply N. rewrite !Rminus_0_r, ln_Rinv, Rabs_Ropp by lra.
    assert (0 < ln 3) by (rewrite <- ln_1; apply ln_increasing; lra). assert (ln 3 < ln 4) by (apply ln_increasing; lra). rewrite !Rabs_pos_eq by lra. assumption.
  Qed.
  Lemma after : argmin_lt (phd_entry 0 (boost d p1) (boost d h)) (phd_entry 0 (boost d p0) (boost d h)) = true.
  Proof.
    destruct (on_massless 3 ltac:(lra)) as (P & E & _ & R). destruct (on_massless (/ 4) ltac:(lra)) as (P' & E' & _ & R').
    pose proof (massless_boost d p0 P E) as A. pose proof (massless_boost d p1 P' E') as B. unfold p0 in A at 2. unfold p1 in B at 2. rewrite R in A. rewrite R' in B.
    rewrite (entry (boost d p0) (boost d h) _ _ eq_refl eq_refl eq_refl eq_refl A h_boost), (entry (boost d p1) (boost d h) _ _ eq_refl eq_refl eq_refl eq_refl B h_boost).
    unfold argmin_lt. destruct (Rlt_dec _ _) as [|N]; [reflexivity|]. exfalso. apply N. unfold d. rewrite ln_Rinv by lra. replace 4 with (2 * 2) by ring. rewrite ln_mult by lra.
    assert (0 < ln 2) by (rewrite <- ln_1; apply ln_increasing; lra). assert (ln 2 < ln 3) by (apply ln_increasing; lra).
    replace (- (ln 2 + ln 2) + - ln 2 - - (2 * ln 2)) with (- ln 2) by ring. replace (ln 3 + - ln 2 - - (2 * ln 2)) with (ln 3 + ln 2) by ring. rewrite Rabs_Ropp, !Rabs_pos_eq by lra. lra.
  Qed.
  Lemma fine (q : list mom) : length q = 5%nat -> SpecPart.event_ok 5 Demo.es Demo.status Demo.final q.
  Proof. intros L. destruct Demo.event_fine as (L1 & L2 & L3 & _ & HS & HD & HFi). split; [exact L1|split; [exact L2|split; [exact L3|split; [exact L|split; [exact HS|split; [exact HD|exact HFi]]]]]]. Qed.
  Lemma inc k : incident Demo.es 1%Z k -> k = 0%nat \/ k = 1%nat.
  Proof. intros (a & H). do 5 (destruct k as [|k]; [cbn in H; try discriminate; auto|]). destruct k; discriminate. Qed.
  Lemma near (a b g x y : mom) : argmin_lt (phd_entry 0 a g) (phd_entry 0 b g) = true -> SpecPart.nearest (phd_entry 0) argmin_lt Demo.es [a; b; g; x; y] 1%Z 2 0.
  Proof.
    intros L. split; [exists 0%Z; reflexivity|]. exists a, g. split; [reflexivity|]. split; [reflexivity|]. intros k q I Hq. destruct (inc k I) as [-> | ->]; cbn in Hq; injection Hq as <-.
    - split; [apply argmin_weak | lia].
    - split; [|lia]. apply Bool.not_true_is_false. intros L'. destruct argmin_weak as (W1 & W2 & _). pose proof (W2 _ _ _ L L') as K. rewrite W1 in K. discriminate.
  Qed.
  Lemma near' (a b g x y : mom) : argmin_lt (phd_entry 0 b g) (phd_entry 0 a g) = true -> SpecPart.nearest (phd_entry 0) argmin_lt Demo.es [a; b; g; x; y] 1%Z 2 1.
  Proof.
    intros L. split; [exists 0%Z; reflexivity|]. exists b, g. split; [reflexivity|]. split; [reflexivity|]. intros k q I Hq. destruct (inc k I) as [-> | ->]; cbn in Hq; injection Hq as <-.
    - split; [|intros _; exact L]. apply Bool.not_true_is_false. intros L'. destruct argmin_weak as (W1 & W2 & _). pose proof (W2 _ _ _ L L') as K. rewrite W1 in K. discriminate.
    - split; [apply argmin_weak | lia].
  Qed.
  Lemma physical q : In q pmu -> 0 < pt_sq q /\ sqrt (p_sq q) <= en q.
  Proof.
    destruct (on_massless 3 ltac:(lra)) as (P & E & _ & _). destruct (on_massless (/ 4) ltac:(lra)) as (P' & E' & _ & _). fold p0 in P, E. fold p1 in P', E'.
    assert (H : 0 < pt_sq h /\ sqrt (p_sq h) <= en h). { split; [unfold pt_sq, h; cbn [px py]; lra|]. unfold p_sq, h. cbn [px py pz en]. replace (1 * 1 + 0 * 0 + 0 * 0) with 1 by ring. rewrite sqrt_1. lra. }
    intros [<-|[<-|[<-|[<-|[<-|[]]]]]]; auto; split; auto; lra.
  Qed.
End Witness.

(** The hadron moves from the first parton to the second. *)
Theorem C213_boosted_refuted : ~ C213_full.
Proof.
  intros H. pose (pmu' := map (boost Witness.d) Witness.pmu).
  assert (HS : shift_rapidity (Scalar Witness.d) Witness.pmu = Ok pmu') by (unfold shift_rapidity, spread; cbn [bind]; rewrite map2_repeat; reflexivity).
  destruct (H 0 Witness.d 5%nat Demo.es Demo.status Demo.final Witness.pmu pmu' "or"%string Demo.kids (Witness.fine Witness.pmu eq_refl) Demo.branches_fine Witness.physical HS) as (tree & E & E').
  destruct (C49_partition_descendants (phd_entry 0) argmin_lt 5 Demo.es Demo.status Demo.final Witness.pmu "or"%string Demo.kids argmin_weak (Witness.fine Witness.pmu eq_refl) Demo.branches_fine) as (ks & K & L).
  destruct (C49_partition_descendants (phd_entry 0) argmin_lt 5 Demo.es Demo.status Demo.final pmu' "or"%string Demo.kids argmin_weak (Witness.fine pmu' eq_refl) Demo.branches_fine) as (ks' & K' & L').
  unfold partition_event in E, E'. rewrite E in K. rewrite E' in K'. injection K as ->. injection K' as <-.
  destruct (L ["a"%string] _ eq_refl) as (m & Hm & Q). destruct (L' ["a"%string] _ eq_refl) as (m' & Hm' & Q'). rewrite Hm in Hm'. injection Hm' as <-.
  destruct m as [x|]; [|contradiction]. cbn [tl has] in Q, Q'. destruct Q as (_ & Q & _), Q' as (_ & Q' & _).
  assert (T : touches Demo.es [true; false; true; true; true] 1%Z) by (exists 0%nat; split; [exists 0%Z; reflexivity|reflexivity]).
  assert (F : final_desc Demo.es Demo.final 1%Z 2) by (split; [reflexivity|]; exists 1%Z, 2%Z; split; [reflexivity|constructor]).
  pose proof (Q 1%Z 2%nat 0%nat Demo.vertex_selected T F (Witness.near _ _ _ _ _ Witness.before)) as A.
  pose proof (Q' 1%Z 2%nat 1%nat Demo.vertex_selected T F (Witness.near' _ _ _ _ _ Witness.after)) as B.
  rewrite A in B. destruct B as (B & _). specialize (B eq_refl). discriminate.
Qed.

(** The hypotheses of the others are met by the witness too; a massless event: *)
Example C213_case : SpecPart.event_ok 5 Demo.es Demo.status Demo.final [Witness.p0; Witness.p1; Witness.p1; Witness.p0; Witness.p0] /\ branches_ok 5 Demo.kids /\
  (forall p, In p [Witness.p0; Witness.p1; Witness.p1; Witness.p0; Witness.p0] -> 0 < pt_sq p /\ en p = sqrt (p_sq p)) /\ exists l, shift_rapidity (Scalar 1) [Witness.p0; Witness.p1; Witness.p1; Witness.p0; Witness.p0] = Ok l.
Proof.
  split; [apply Witness.fine; reflexivity|]. split; [exact Demo.branches_fine|]. split; [|eexists; reflexivity].
  destruct (Witness.on_massless 3 ltac:(lra)) as (P & E & _ & _). destruct (Witness.on_massless (/ 4) ltac:(lra)) as (P' & E' & _ & _).
  intros p [<-|[<-|[<-|[<-|[<-|[]]]]]]; split; assumption.
Qed.
(** Squared distances order the partons as distances do. *)
Example C211_case : order_alike Demo.dst Z.ltb Demo.pmu (fun a b => ((a - b) * (a - b))%Z) Z.ltb Demo.pmu Demo.es Demo.status Demo.final.
Proof.
  intros v i k1 k2 p1 p2 h q1 q2 g _ _ _ _ P1 P2 P3 Q1 Q2 Q3. rewrite P1 in Q1; rewrite P2 in Q2; rewrite P3 in Q3. injection Q1 as <-; injection Q2 as <-; injection Q3 as <-.
  unfold Demo.dst. apply Bool.eq_iff_eq_true. rewrite !Z.ltb_lt. set (a := (p1 - h)%Z). set (b := (p2 - h)%Z). rewrite <- (Z.abs_square a), <- (Z.abs_square b). pose proof (Z.abs_nonneg a). pose proof (Z.abs_nonneg b). split; intros; nia.
Qed.
Example C212_case : exists pmu', shift_phi (Scalar 1) Witness.pmu = Ok pmu' /\ SpecPart.event_ok 5 Demo.es Demo.status Demo.final Witness.pmu.
Proof. eexists. split; [reflexivity|apply Witness.fine; reflexivity]. Qed.

Print Assumptions C211_order_only.
Print Assumptions C212_turned.
Print Assumptions C212_units.
Print Assumptions C212_hadron_magnitudes.
Print Assumptions C213_massless_partial.
Print Assumptions C213_boosted_refuted.
