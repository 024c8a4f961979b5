(** C206, C207: hadrons go to the parton at the least pT-weighted distance. *)
From Coq Require Import Reals Lra.
From Verif Require Import Prelude Dict Keys MaskTypes SpecMask Mask SpecAdj SpecArray SpecPart SpecReal SpecDist SpecEdge Kinem KinemProofs DeltaR DeltaRProofs P_DeltaR P_Edge SpecMatrix Matrix P_Matrix Partition PartProofs P_Part.
From Verif Require Import SpecPartDist PartDist.
Open Scope R_scope.

Lemma argmin_weak : weak_order argmin_lt.
Proof.
  split; [|split].
  - intros [x| | |]; cbn; try reflexivity. destruct (Rlt_dec x x); [lra|reflexivity].
  - intros [x| | |] [y| | |] [z| | |]; cbn; try discriminate; try reflexivity. destruct (Rlt_dec x y), (Rlt_dec y z), (Rlt_dec x z); try discriminate; try reflexivity; lra.
  - intros [x| | |] [y| | |] [z| | |]; cbn; try discriminate; auto. destruct (Rlt_dec x y), (Rlt_dec y z), (Rlt_dec x z); try discriminate; auto; lra.
Qed.

(** The entries are those of parton_hadron_distance. *)
Theorem C206_matrix : forall e partons hadrons out i j p h, parton_hadron_distance false partons hadrons e out ->
  nth_error partons i = Some p -> nth_error hadrons j = Some h -> at2 out i j = Some (phd_entry e p h).
Proof. intros e partons hadrons out i j p h H Hp Hh. rewrite (phd_at false _ _ _ _ _ _ ltac:(discriminate) H), Hp, Hh. reflexivity. Qed.

Lemma weighted_entry e p h x : 0 < pt_sq p -> (weighted_is e p h x <-> x = phd_entry e p h).
Proof.
  intros PP. assert (PT : 0 < pt p) by (unfold pt; apply sqrt_lt_R0; exact PP).
  assert (RP : 0 < Rpower (sqrt (pt_sq p)) e) by apply exp_pos.
  assert (K : phd_entry e p h = match dist_is (eta p) (eta h) (delta_phi p h) with Fin y => Fin (Rpower (sqrt (pt_sq p)) e * y) | d => d end).
  { unfold phd_entry, np_power. destruct (Rlt_dec 0 (pt p)) as [_|]; [|contradiction]. rewrite entry_dist. cbn [emul2].
    change (Rpower (pt p) e) with (Rpower (sqrt (pt_sq p)) e).
    destruct (dist_is (eta p) (eta h) (delta_phi p h)) as [y| | |] eqn:E; cbn [emul].
    - f_equal. ring.
    - destruct (Req_EM_T (Rpower (sqrt (pt_sq p)) e) 0); [lra|]. destruct (Rlt_dec 0 (Rpower (sqrt (pt_sq p)) e)); [reflexivity|contradiction].
    - destruct (eta p), (eta h); discriminate.
    - reflexivity. }
  rewrite K. split.
  - intros (a & b & f & A & B & F & ->). pose proof (coord_unique true p a (eta p) A (coord_rap true p)) as ->. pose proof (coord_unique true h b (eta h) B (coord_rap true h)) as ->.
    pose proof (gap_unique _ _ _ _ F (gap_delta_phi p h)) as ->. reflexivity.
  - intros ->. exists (eta p), (eta h), (delta_phi p h). split; [exact (coord_rap true p)|]. split; [exact (coord_rap true h)|]. split; [apply gap_delta_phi|]. reflexivity.
Qed.

Lemma entry_shape e p h : 0 < pt_sq p -> (exists y, 0 <= y /\ phd_entry e p h = Fin y) \/ phd_entry e p h = PInf.
Proof.
  intros PP. assert (W : weighted_is e p h (phd_entry e p h)) by (apply weighted_entry; [exact PP|reflexivity]).
  assert (RP : 0 < Rpower (sqrt (pt_sq p)) e) by apply exp_pos.
  destruct W as (a & b & f & _ & _ & _ & ->).
  destruct a, b; cbn [dist_is]; try (right; reflexivity); left; eexists; (split; [|reflexivity]); (apply Rmult_le_pos; [lra|]); try apply sqrt_pos; apply Rabs_pos.
Qed.
Lemma lt_closer e p p' h : 0 < pt_sq p -> 0 < pt_sq p' -> (argmin_lt (phd_entry e p h) (phd_entry e p' h) = true <-> closer (phd_entry e p h) (phd_entry e p' h)).
Proof.
  intros A B. destruct (entry_shape e p h A) as [(y & _ & ->)| ->], (entry_shape e p' h B) as [(y' & _ & ->)| ->]; cbn; try tauto; try (split; [discriminate|tauto]).
  destruct (Rlt_dec y y'); split; auto; try discriminate; lra.
Qed.

Lemma claims_nearest e es pmu v i k : partons_fine es pmu v -> (claims e es pmu v i k <-> SpecPart.nearest (phd_entry e) argmin_lt es pmu v i k).
Proof.
  intros PF. unfold claims, SpecPart.nearest. split; intros (I & H); (split; [exact I|]).
  - destruct H as (p & h & x & Hp & Hh & W & M). exists p, h. split; [exact Hp|]. split; [exact Hh|]. intros k' p' I' Hp'.
    pose proof (PF _ _ I Hp) as A. pose proof (PF _ _ I' Hp') as B. apply weighted_entry in W; [|exact A]. subst x.
    destruct (M k' p' (phd_entry e p' h) I' Hp') as (M1 & M2); [apply weighted_entry; [exact B|reflexivity]|].
    split; [apply Bool.not_true_is_false; intros T; apply M1, lt_closer; assumption | intros L; apply lt_closer; auto].
  - destruct H as (p & h & Hp & Hh & M). pose proof (PF _ _ I Hp) as A. exists p, h, (phd_entry e p h). split; [exact Hp|]. split; [exact Hh|]. split; [apply weighted_entry; [exact A|reflexivity]|].
    intros k' p' x' I' Hp' W'. pose proof (PF _ _ I' Hp') as B. apply weighted_entry in W'; [|exact B]. subst x'. destruct (M k' p' I' Hp') as (M1 & M2).
    split; [intros C; apply lt_closer in C; [congruence|assumption|assumption] | intros L; apply lt_closer; auto].
Qed.

(** C206: a final hadron of a partitioned vertex is in a leaf exactly if the parton that claims it is. *)
Theorem C206_claimed : forall e n es status final (pmu : list mom) agg kids,
  event_ok n es status final pmu -> branches_ok n kids ->
  exists kids', partition_event e es status final pmu (MGrp agg kids) = Ok (MGrp agg kids') /\
    forall q d, leaf_at agg kids q d -> exists d', leaf_at agg kids' q d' /\
      (forall v i, selected es status kids v -> partons_fine es pmu v -> touches es d v -> final_desc es final v i ->
         exists k, claims e es pmu v i k /\ (nth_error d' i = Some true <-> nth_error d k = Some true)) /\
      (forall i, (forall v, selected es status kids v -> touches es d v -> ~ final_desc es final v i) -> nth_error d' i = nth_error d i).
Proof.
  intros e n es status final pmu agg kids HE HB. destruct (C49_partition_descendants (phd_entry e) argmin_lt n es status final pmu agg kids argmin_weak HE HB) as (kids' & E & H).
  exists kids'. split; [exact E|]. intros q d (Hq & Hl). destruct (H q _ Hq) as (m' & E' & R). destruct m' as [d'|]; [|contradiction]. rewrite Hl in R. destruct R as (_ & R1 & R2).
  exists d'. split; [split; assumption|]. split; [|exact R2]. intros v i Sv PF T F.
  destruct (C49_nearest_exists (phd_entry e) argmin_lt n es status final pmu v i argmin_weak HE (proj1 Sv)) as (k & N & _); [destruct T as (x & ? & _); eauto | exact F|].
  exists k. split; [apply claims_nearest; assumption|]. exact (R1 v i k Sv T F N).
Qed.
(** There is just one such parton. *)
Theorem C206_unique : forall e es pmu v i k k', partons_fine es pmu v -> claims e es pmu v i k -> claims e es pmu v i k' -> k = k'.
Proof. intros e es pmu v i k k' PF A B. apply claims_nearest in A, B; try exact PF. eapply nearest_unique; eassumption. Qed.

(** The exponent 0 gives plain distances in pseudorapidity and azimuth. *)
Theorem C206_exponent_zero : forall p h x, 0 < pt_sq p ->
  (weighted_is 0 p h x <-> exists a b f, eta_is p a /\ eta_is h b /\ gap_is p h f /\ x = dist_is a b f).
Proof.
  intros p h x P. assert (0 < sqrt (pt_sq p)) as Q by (apply sqrt_lt_R0; exact P). unfold weighted_is. rewrite Rpower_O by exact Q.
  split; intros (a & b & f & A & B & F & ->); exists a, b, f; (split; [exact A|]); (split; [exact B|]); (split; [exact F|]); destruct (dist_is a b f); try reflexivity; f_equal; ring.
Qed.

(** C207: with a negative exponent a parton that is not exactly on the hadron's axis claims nothing once it is soft enough. *)
Theorem C207_soft_parton_claims_nothing : forall e (p h : mom) x r, e < 0 -> 0 < r -> 0 < pt_sq p -> weighted_is e p h (Fin x) ->
  exists delta, 0 < delta /\ forall es pmu v i k k' s y, incident es v k -> nth_error pmu k = Some p -> nth_error pmu i = Some h -> incident es v k' -> nth_error pmu k' = Some s ->
    partons_fine es pmu v -> sqrt (pt_sq s) < delta -> weighted_is 0 s h y -> ~ closer y (Fin r) -> ~ claims e es pmu v i k'.
Proof.
  intros e p h x r He Hr PP W.
  assert (X0 : 0 <= x). { apply weighted_entry in W; [|exact PP]. destruct (entry_shape e p h PP) as [(y & Y & E)|E]; rewrite E in W; [injection W as ->; exact Y|discriminate]. }
  exists (Rpower ((x + 1) / r) (/ e)). assert (Q : 0 < (x + 1) / r) by (apply Rdiv_lt_0_compat; lra). split; [apply exp_pos|].
  intros es pmu v i k k' s y I Hp Hh I' Hs PF SD Wy Far (_ & s' & h' & z & Hs' & Hh' & Wz & Cl). rewrite Hs in Hs'. injection Hs' as <-. rewrite Hh in Hh'. injection Hh' as <-.
  destruct (Cl k p (Fin x) I Hp W) as (NC & _). apply NC. clear NC Cl.
  pose proof (PF _ _ I' Hs) as PS. assert (S0 : 0 < sqrt (pt_sq s)) by (apply sqrt_lt_R0; exact PS).
  apply C206_exponent_zero in Wy; [|exact PS]. destruct Wy as (a & b & f & A & B & F & Ey). destruct Wz as (a' & b' & f' & A' & B' & F' & Ez).
  pose proof (coord_unique true s a a' A A') as <-. pose proof (coord_unique true h b b' B B') as <-. pose proof (gap_unique _ _ _ _ F F') as <-. rewrite <- Ey in Ez.
  assert (BIG : (x + 1) / r < Rpower (sqrt (pt_sq s)) e).
  { replace ((x + 1) / r) with (Rpower (Rpower ((x + 1) / r) (/ e)) e) by (rewrite Rpower_mult, Rinv_l, Rpower_1 by lra; reflexivity).
    unfold Rpower at 1 3. apply exp_increasing. apply Rmult_lt_gt_compat_neg_l; [exact He|]. apply ln_increasing; assumption. }
  assert (SH : (exists t, y = Fin t) \/ y = PInf) by (rewrite Ey; destruct a, b; cbn; eauto).
  destruct SH as [(t & ->)| ->]; subst z; cbn in *; [|exact Logic.I].
  assert (r <= t) by lra. apply Rlt_le_trans with (x + 1); [lra|]. replace (x + 1) with ((x + 1) / r * r) by (field; lra).
  apply Rmult_le_compat; lra.
Qed.
(** The exception: a parton exactly on the hadron's axis, before the others, claims it however soft it is. *)
Theorem C207_collinear : forall e es pmu v i k s h, incident es v k -> nth_error pmu k = Some s -> nth_error pmu i = Some h -> partons_fine es pmu v ->
  weighted_is 0 s h (Fin 0) -> (forall k', incident es v k' -> (k <= k')%nat) -> claims e es pmu v i k.
Proof.
  intros e es pmu v i k s h I Hs Hh PF W0 First. pose proof (PF _ _ I Hs) as PS. assert (S0 : 0 < sqrt (pt_sq s)) by (apply sqrt_lt_R0; exact PS).
  split; [exact I|]. exists s, h, (Fin 0). split; [exact Hs|]. split; [exact Hh|]. split.
  - apply C206_exponent_zero in W0; [|exact PS]. destruct W0 as (a & b & f & A & B & F & E). exists a, b, f. split; [exact A|]. split; [exact B|]. split; [exact F|]. rewrite <- E. f_equal. ring.
  - intros k' p' x' I' Hp' W'. pose proof (First k' I') as L. split; [|intros L'; lia]. apply weighted_entry in W'; [|exact (PF _ _ I' Hp')].
    destruct (entry_shape e p' h (PF _ _ I' Hp')) as [(y & Y & E)|E]; rewrite W', E; cbn; lra.
Qed.

(** Two quarks end at vertex 1 of P_Part's event; one hadron flies along each. *)
Module Demo3.
  Import P_Part.Demo.
  Definition u := Mom 1 0 0 1. Definition w := Mom 0 1 0 1.
  Definition pmu3 : list mom := [u; w; u; w; Mom 0 0 1 1].
  Example event_fine3 : event_ok 5 es status final pmu3.
  Proof. destruct event_fine as (A & B & C & _ & D). split; [exact A|]. split; [exact B|]. split; [exact C|]. split; [reflexivity|exact D]. Qed.
  Example partons3 : partons_fine es pmu3 1%Z.
  Proof.
    intros k p (a & H) Hp. do 2 (destruct k as [|k]; [cbn in Hp; injection Hp as <-; unfold pt_sq; cbn; lra|]). do 3 (destruct k as [|k]; [cbn in H; congruence|]). destruct k; discriminate.
  Qed.
  Lemma self p : 0 < pt_sq p -> weighted_is 0 p p (Fin 0).
  Proof. intros P. apply weighted_entry; [exact P|]. unfold phd_entry, np_power. rewrite delta_entry_self. assert (0 < pt p) by (unfold pt; apply sqrt_lt_R0; exact P). destruct (Rlt_dec 0 (pt p)); [|contradiction]. cbn. f_equal. ring. Qed.
  Example first_claims : forall e, claims e es pmu3 1%Z 2 0.
  Proof.
    intros e. apply (C207_collinear e es pmu3 1%Z 2 0 u u); [exists 0%Z; reflexivity|reflexivity|reflexivity|exact partons3|apply self; unfold pt_sq; cbn; lra|]. intros; lia.
  Qed.
  Example first_fine : final_desc es final 1%Z 2 /\ touches es [true; false; true; true; true] 1%Z.
  Proof. split; [split; [reflexivity|exists 1%Z, 2%Z; split; [reflexivity|constructor]] | exists 0%nat; split; [exists 0%Z; reflexivity|reflexivity]]. Qed.
  Example soft_fine : exists x, weighted_is (-1) u w (Fin x) /\ 0 < x.
  Proof.
    assert (P : forall p, p = u \/ p = w -> 0 < pt_sq p) by (intros p [-> | ->]; unfold pt_sq; cbn; lra).
    exists (Rpower (sqrt (pt_sq u)) (-1) * sqrt ((pseudo_rap u - pseudo_rap w) * (pseudo_rap u - pseudo_rap w) + delta_phi u w * delta_phi u w)). split.
    - exists (Fin (pseudo_rap u)), (Fin (pseudo_rap w)), (delta_phi u w). split; [apply eta_transverse, P; auto|]. split; [apply eta_transverse, P; auto|]. split; [apply gap_delta_phi|reflexivity].
    - apply Rmult_lt_0_compat; [apply exp_pos|]. apply sqrt_lt_R0. assert (G : delta_phi u w <> 0).
      { destruct (gap_delta_phi u w) as [(_ & _ & _ & G)|([Z|Z] & _)]; [|pose proof (P u (or_introl eq_refl)); lra|pose proof (P w (or_intror eq_refl)); lra].
        intros E. rewrite E in G. destruct (G 0 (PI / 2)) as (k & Hk).
        - split; [pose proof PI_RGT_0; lra|]. rewrite cos_0, sin_0. cbn. split; [|lra]. replace (1 * 1 + 0 * 0) with 1 by ring. rewrite sqrt_1. lra.
        - split; [pose proof PI_RGT_0; lra|]. rewrite cos_PI2, sin_PI2. cbn. split; [lra|]. replace (0 * 0 + 1 * 1) with 1 by ring. rewrite sqrt_1. lra.
        - pose proof PI_RGT_0 as PP. assert (H4 : 0 = PI * (4 * IZR k - 1)) by lra. apply eq_sym, Rmult_integral in H4 as [|H4]; [lra|]. assert (4 * k - 1 = 0)%Z; [|lia]. apply eq_IZR. rewrite minus_IZR, mult_IZR. exact H4. }
      pose proof (Rle_0_sqr (pseudo_rap u - pseudo_rap w)) as S1. pose proof (Rsqr_pos_lt _ G) as S2. unfold Rsqr in *. lra.
  Qed.
End Demo3.

Print Assumptions C206_matrix.
Print Assumptions C206_claimed.
Print Assumptions C206_unique.
Print Assumptions C206_exponent_zero.
Print Assumptions C207_soft_parton_claims_nothing.
Print Assumptions C207_collinear.
