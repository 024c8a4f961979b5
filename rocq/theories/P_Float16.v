(** rotation_matrix and split_momentum in IEEE doubles (C200-C202). *)
From Coq Require Import ZArith Reals List Bool Lia Lra Permutation.
From Flocq Require Import Core BinarySingleNaN.
From Verif Require Import Prelude SpecReal SpecShapes SpecTransform RealBase Shapes ShapesProofs Transform P_Transform SpecIEEE Floats FloatBase FloatOps Floats2 Floats3 P_Float P_Float3 P_Float4 P_Float6 P_Float9 P_Float10 P_Float11 P_Float12 P_Float14.
From Verif Require Import Floats7.
Import ListNotations.
Open Scope R_scope.

Lemma ffma_ok : forall a b s, fin a -> fin b -> fin s -> Rabs (nearest (val a * val b + val s)) < bpow radix2 1024 ->
  val (ffma a b s) = nearest (val a * val b + val s) /\ fin (ffma a b s).
Proof.
  intros a b s Ha Hb Hs H. pose proof (Bfma_correct 53 1024 prec_pos prec_emax mode_NE a b s Ha Hb Hs) as C. cbv zeta in C.
  change (round radix2 (SpecFloat.fexp 53 1024) (round_mode mode_NE) (B2R a * B2R b + B2R s)) with (nearest (val a * val b + val s)) in C.
  rewrite Rlt_bool_true in C by exact H. destruct C as (A & B & _). split; assumption.
Qed.

Lemma ap_neg : forall c B m x X, ap c B m x X -> ap c B m (fneg x) (- X).
Proof.
  intros c B m x X (F & N & H). split; [apply fneg_fin; exact F|]. rewrite Rabs_Ropp. split; [|exact H]. unfold near in *. rewrite fneg_ok.
  replace (- val x - - X) with (- (val x - X)) by ring. rewrite Rabs_Ropp. exact N.
Qed.
Lemma ap_bound : forall c B D m x X, ap c B m x X -> Rabs X <= D * m -> ap c D m x X.
Proof. intros c B D m x X (F & N & _) H. repeat split; assumption. Qed.
Lemma ap_eq : forall c B m x X Y, ap c B m x X -> X = Y -> ap c B m x Y.
Proof. intros; subst; assumption. Qed.

(** * The dot product, in any order, with or without fused multiply-add *)
Definition pairs_ok (c d m n : R) (ps : list (f64 * f64)) (qs : list (R * R)) : Prop :=
  Forall2 (fun p q => ap c 1 m (fst p) (fst q) /\ ap d 1 n (snd p) (snd q)) ps qs.
Definition rdot (qs : list (R * R)) : R := fold_right (fun q a => fst q * snd q + a) 0 qs.
Definition slack (k : nat) : R := match k with O => 0 | 1%nat => 3 | 2%nat => 7 | _ => 12 end.

Lemma rdot_le : forall c d m n ps qs, 0 <= m -> 0 <= n -> pairs_ok c d m n ps qs -> Rabs (rdot qs) <= INR (length qs) * (m * n).
Proof.
  intros c d m n ps qs M N H. induction H as [|p q ps qs ((_ & _ & B1) & (_ & _ & B2)) H IH]; cbn [rdot fold_right length].
  - rewrite Rabs_R0. cbn. lra.
  - rewrite S_INR. eapply Rle_trans; [apply Rabs_triang|]. fold (rdot qs). rewrite Rabs_mult.
    assert (Rabs (fst q) * Rabs (snd q) <= m * n) by (apply Rmult_le_compat; try apply Rabs_pos; lra). lra.
Qed.

Lemma dot_ap : forall c d m n ps s, dot_value ps s -> forall qs, pairs_ok c d m n ps qs -> (length ps <= 3)%nat ->
  scale (m * n) -> 0 <= m -> 0 <= n -> 0 <= c <= 10000 -> 0 <= d <= 10000 ->
  ap (INR (length ps) * (c + d) + slack (length ps)) (INR (length ps)) (m * n) s (rdot qs).
Proof.
  intros c d m n ps s H. induction H as [|a b|a b ps s H IH|a b ps s H IH]; intros qs HP HL S M N HC HD.
  - inversion HP; subst. cbn. split; [reflexivity|]. split; [|rewrite Rabs_R0; lra]. unfold near. change (val fzero) with 0. rewrite Rminus_0_r, Rabs_R0. lra.
  - inversion HP as [|p q ps9 qs9 (A1 & A2) HR]; subst. inversion HR; subst. cbn [fst snd] in A1, A2. cbn [length rdot fold_right INR slack].
    eapply ap_weak; [eapply ap_eq; [eapply (ap_mul' (c + d + 1 + 2 / 100)); [exact A1 | exact A2 | ..]|]|..]; try lra; try exact S.
    apply Rmult_le_pos; lra.
  - inversion HP as [|p q ps' qs' (A1 & A2) HR]; subst. cbn [fst snd] in A1, A2. cbn [length rdot fold_right]. fold (rdot qs').
    assert (HL' : (length ps <= 2)%nat) by (cbn in HL; lia). specialize (IH qs' HR ltac:(lia) S M N HC HD).
    pose proof (ap_mul' (c + d + 1 + 2 / 100) _ _ _ _ _ _ _ _ _ _ _ A1 A2 eq_refl S M N ltac:(lra) ltac:(lra) ltac:(lra) ltac:(lra) ltac:(lra)) as P.
    assert (MN : 0 <= m * n) by (apply Rmult_le_pos; lra).
    destruct (length ps) as [|[|[|k]]]; [| | |lia]; cbn [INR slack] in *;
      (eapply ap_weak; [eapply ap_eq; [eapply ap_add'; [exact IH | exact P | exact S | lra | lra | lra | lra | apply Rle_refl]|]|..]; lra).
  - inversion HP as [|p q ps' qs' (A1 & A2) HR]; subst. cbn [fst snd] in A1, A2. cbn [length rdot fold_right]. fold (rdot qs').
    assert (HL' : (length ps <= 2)%nat) by (cbn in HL; lia). specialize (IH qs' HR ltac:(lia) S M N HC HD).
    assert (MN : 0 <= m * n) by (apply Rmult_le_pos; lra).
    destruct A1 as (Fa & Na & Ba). destruct A2 as (Fb & Nb & Bb). destruct IH as (Fs & Ns & Bs).
    assert (CD : c * d * u <= / 100). { apply bigger_uu; try lra. apply Rle_trans with (10000 * 10000); [apply Rmult_le_compat; lra | lra]. }
    pose proof (near_mult c d m n _ _ _ _ 1 1 ltac:(lra) ltac:(lra) CD M N ltac:(lra) ltac:(lra) Ba Bb Na Nb) as N1.
    pose proof (near_add _ _ _ _ _ _ _ N1 Ns) as N2.
    assert (BX : Rabs (fst q * snd q + rdot qs') <= (1 + INR (length ps)) * (m * n)).
    { eapply Rle_trans; [apply Rabs_triang|]. rewrite Rabs_mult. assert (Rabs (fst q) * Rabs (snd q) <= m * n) by (apply Rmult_le_compat; try apply Rabs_pos; lra). lra. }
    assert (K3 : 0 <= INR (length ps) <= 2) by (split; [apply pos_INR | apply (le_INR _ 2); exact HL']).
    assert (SL : 0 <= slack (length ps) <= 7) by (destruct (length ps) as [|[|[|k]]]; cbn [slack]; try lra; lia).
    assert (T : 0 <= INR (length ps) * (c + d) <= 40000) by (split; [apply Rmult_le_pos; lra | apply Rle_trans with (2 * 20000); [apply Rmult_le_compat; lra | lra]]).
    match type of N2 with near ?e _ _ _ => set (e0 := e) in * end.
    assert (E0 : 0 <= e0 <= 100000) by (unfold e0; lra).
    destruct (ffma_ok a b s Fa Fb Fs) as (V & F).
    { apply (scale_fits e0 (m * n) _ (fst q * snd q + rdot qs') (1 + INR (length ps))); auto; try lra. eapply Rle_trans; [apply bigger_u; lra | lra]. }
    split; [exact F|]. rewrite V. split.
    + destruct S as (S & _). eapply near_weak; [| |split; [exact MN | apply Rle_refl] | eapply near_round; [| |  | exact S | exact BX | exact N2]]; try lra.
      * unfold e0. cbn [length]. rewrite S_INR. destruct (length ps) as [|[|[|k]]]; cbn [INR slack] in *; try lia; lra.
      * eapply Rle_trans; [apply bigger_u; lra | lra].
    + rewrite S_INR. rewrite Rplus_comm with (r1 := INR (length ps)). exact BX.
Qed.

Lemma dot3_ap : forall c d m n a b A B s, f_dot3_value a b s ->
  ap c 1 m (rx a) (vx A) -> ap c 1 m (ry a) (vy A) -> ap c 1 m (rz a) (vz A) ->
  ap d 1 n (rx b) (vx B) -> ap d 1 n (ry b) (vy B) -> ap d 1 n (rz b) (vz B) ->
  scale (m * n) -> 0 <= m -> 0 <= n -> 0 <= c <= 10000 -> 0 <= d <= 10000 ->
  ap (3 * (c + d) + 12) 3 (m * n) s (vdot A B).
Proof.
  intros c d m n a b A B s (ps & P & H) A1 A2 A3 B1 B2 B3 S M N HC HD.
  assert (G : pairs_ok c d m n [(rx a, rx b); (ry a, ry b); (rz a, rz b)] [(vx A, vx B); (vy A, vy B); (vz A, vz B)]) by (apply Forall2_cons; [split; assumption|]; apply Forall2_cons; [split; assumption|]; apply Forall2_cons; [split; assumption|]; apply Forall2_nil).
  apply Permutation_sym in P.
  assert (X : exists qs, pairs_ok c d m n ps qs /\ Permutation [(vx A, vx B); (vy A, vy B); (vz A, vz B)] qs).
  { clear H. revert G. generalize [(vx A, vx B); (vy A, vy B); (vz A, vz B)]. induction P as [|x l l' P IH|x y l|l l' l'' P1 IH1 P2 IH2]; intros qs G.
    - inversion G; subst. exists []. split; [apply Forall2_nil | constructor].
    - inversion G as [|? q ? qs' G1 G2]; subst. destruct (IH _ G2) as (r & R1 & R2). exists (q :: r). split; [apply Forall2_cons; assumption | constructor; assumption].
    - inversion G as [|? q ? qs' G1 G2]; subst. inversion G2 as [|? q2 ? qs'' G3 G4]; subst. exists (q2 :: q :: qs''). split; [apply Forall2_cons; [exact G3|]; apply Forall2_cons; [exact G1 | exact G4] | constructor].
    - destruct (IH1 _ G) as (r & R1 & R2). destruct (IH2 _ R1) as (r2 & R3 & R4). exists r2. split; [exact R3 | eapply perm_trans; eassumption]. }
  destruct X as (qs & Q1 & Q2).
  assert (L : length ps = 3%nat) by (rewrite <- (Permutation_length P); reflexivity).
  pose proof (dot_ap c d m n ps s H qs Q1 ltac:(lia) S M N HC HD) as R. rewrite L in R. cbn [INR slack] in R.
  assert (E : rdot qs = vdot A B).
  { assert (PE : forall l l', Permutation l l' -> rdot l = rdot l'). { induction 1; cbn [rdot fold_right] in *; unfold rdot in *; lra. }
    rewrite <- (PE _ _ Q2). unfold rdot, vdot. cbn. ring. }
  rewrite E in R. eapply ap_weak; [exact R | ..]; try lra. apply Rmult_le_pos; lra.
Qed.

(** * 3-vectors and matrices *)
Definition apv (c B m : R) (v : rec3) (V : vec) : Prop := ap c B m (rx v) (vx V) /\ ap c B m (ry v) (vy V) /\ ap c B m (rz v) (vz V).
Definition apm (c B : R) (A : fmat) (M : mat3) : Prop := apv c B 1 (fr0 A) (row0 M) /\ apv c B 1 (fr1 A) (row1 M) /\ apv c B 1 (fr2 A) (row2 M).

Lemma vdot_comm : forall a b, vdot a b = vdot b a. Proof. intros; unfold vdot; ring. Qed.
Lemma mapply_ap : forall c d m A M v V w, f_mapply_value A v w -> apm d 1 A M -> apv c 1 m v V -> scale m -> 0 <= m -> 0 <= c <= 10000 -> 0 <= d <= 10000 ->
  apv (3 * (c + d) + 12) 3 m w (mapply M V).
Proof.
  intros c d m A M v V w (D1 & D2 & D3) (R1 & R2 & R3) (V1 & V2 & V3) S M0 HC HD.
  assert (S' : scale (m * 1)) by (rewrite Rmult_1_r; exact S).
  assert (G : forall r Rr s, f_dot3_value v r s -> apv d 1 1 r Rr -> ap (3 * (c + d) + 12) 3 m s (vdot Rr V)).
  { intros r Rr s H (H1 & H2 & H3). rewrite vdot_comm. replace m with (m * 1) by ring.
    apply (dot3_ap c d m 1 v r V Rr s H); auto; lra. }
  unfold mapply. split; [|split]; cbn [vx vy vz]; eapply G; eassumption.
Qed.
Lemma col_ap : forall c B A M i, apm c B A M -> apv c B 1 (fcol i A) (col i M).
Proof. intros c B A M i ((a1 & a2 & a3) & (b1 & b2 & b3) & (c1 & c2 & c3)). destruct i as [|[|i]]; (split; [|split]); cbn; assumption. Qed.
Lemma matmul_ap : forall c d A MA B MB C, f_matmul_value A B C -> apm d 1 A MA -> apm c 1 B MB -> 0 <= c <= 10000 -> 0 <= d <= 10000 ->
  apm (3 * (c + d) + 12) 3 C (matmul MA MB).
Proof.
  intros c d A MA B MB C (P0 & P1 & P2) HA HB HC HD. pose proof scale_1 as S1.
  destruct (mapply_ap c d 1 A MA _ _ _ P0 HA (col_ap _ _ _ _ 0 HB) S1 ltac:(lra) HC HD) as (x1 & x2 & x3).
  destruct (mapply_ap c d 1 A MA _ _ _ P1 HA (col_ap _ _ _ _ 1 HB) S1 ltac:(lra) HC HD) as (y1 & y2 & y3).
  destruct (mapply_ap c d 1 A MA _ _ _ P2 HA (col_ap _ _ _ _ 2 HB) S1 ltac:(lra) HC HD) as (z1 & z2 & z3).
  unfold matmul. split; [|split]; (split; [|split]); cbn [row0 row1 row2 vx vy vz] in *; assumption.
Qed.
Lemma smul_ap : forall c B d D A M x X, ap c B 1 x X -> apm d D A M -> 0 <= c <= 100000 -> 0 <= d <= 100000 -> 0 <= B <= 10 -> 0 <= D <= 10 ->
  apm (c * D + d * B + B * D + 2 / 100) (B * D) (f_smul x A) (smul X M).
Proof.
  intros c B d D A M x X HX ((a1 & a2 & a3) & (b1 & b2 & b3) & (c1 & c2 & c3)) H1 H2 H3 H4. pose proof scale_1 as S1.
  unfold f_smul, smul. split; [|split]; (split; [|split]); cbn [fr0 fr1 fr2 rx ry rz fst snd row0 row1 row2 vx vy vz vscale];
    (eapply ap_mul'; [exact HX | eassumption | ring | exact S1 | lra | lra | lra | lra | lra | lra | lra]).
Qed.
Lemma matadd_ap : forall c B d D A M A' M', apm c B A M -> apm d D A' M' -> 0 <= c <= 100000 -> 0 <= d <= 100000 -> 0 <= B <= 10 -> 0 <= D <= 10 ->
  apm (c + d + (B + D) + 1 / 100) (B + D) (f_matadd A A') (matadd M M').
Proof.
  intros c B d D A M A' M' ((a1 & a2 & a3) & (b1 & b2 & b3) & (c1 & c2 & c3)) ((a1' & a2' & a3') & (b1' & b2' & b3') & (c1' & c2' & c3')) H1 H2 H3 H4. pose proof scale_1 as S1.
  unfold f_matadd, matadd. split; [|split]; (split; [|split]); cbn [fr0 fr1 fr2 rx ry rz fst snd row0 row1 row2 vx vy vz vadd];
    (eapply ap_add'; [eassumption | eassumption | exact S1 | lra | lra | lra | lra | lra]).
Qed.
Lemma apv_weak : forall c B d D m v V, apv c B m v V -> c <= d -> B <= D -> 0 <= c -> 0 <= m -> apv d D m v V.
Proof. intros c B d D m v V (A1 & A2 & A3) H1 H2 H3 H4. split; [|split]; eapply ap_weak; eassumption. Qed.
Lemma apm_weak : forall c B d D A M, apm c B A M -> c <= d -> B <= D -> 0 <= c -> apm d D A M.
Proof. intros c B d D A M (A1 & A2 & A3) H1 H2 H3. split; [|split]; (eapply apv_weak; [eassumption|..]); lra. Qed.

Lemma axis_ap : forall fsin fcos k theta phi, 0 <= k <= 10 ->
  trig_ok k fsin sin theta -> trig_ok k fcos cos theta -> trig_ok k fsin sin phi -> trig_ok k fcos cos phi ->
  apv (2 * k + 2) 1 1 (f_axis fsin fcos theta phi) (unit_axis (val phi) (val theta)).
Proof.
  intros fsin fcos k theta phi K (F1 & T1) (F2 & T2) (F3 & T3) (F4 & T4). pose proof scale_1 as S1.
  assert (N1 : forall f g x, Rabs (val (f x) - g (val x)) <= k * u -> near k 1 (val (f x)) (g (val x))) by (intros; unfold near; lra).
  assert (A1 : ap k 1 1 (fsin theta) (sin (val theta))) by (split; [exact F1|]; split; [apply N1; exact T1|]; rewrite Rmult_1_l; apply sin_abs).
  assert (A2 : ap k 1 1 (fcos theta) (cos (val theta))) by (split; [exact F2|]; split; [apply N1; exact T2|]; rewrite Rmult_1_l; apply cos_abs).
  assert (A3 : ap k 1 1 (fsin phi) (sin (val phi))) by (split; [exact F3|]; split; [apply N1; exact T3|]; rewrite Rmult_1_l; apply sin_abs).
  assert (A4 : ap k 1 1 (fcos phi) (cos (val phi))) by (split; [exact F4|]; split; [apply N1; exact T4|]; rewrite Rmult_1_l; apply cos_abs).
  unfold f_axis, unit_axis. split; [|split]; cbn [rx ry rz fst snd vx vy vz].
  - eapply ap_weak; [eapply (ap_mul' (2 * k + 2) 1); [exact A1 | exact A4 | ..]|..]; try lra; exact S1.
  - eapply ap_weak; [eapply (ap_mul' (2 * k + 2) 1); [exact A1 | exact A3 | ..]|..]; try lra; exact S1.
  - eapply ap_weak; [exact A2 | ..]; lra.
Qed.

Definition skew (n : vec) : mat3 := Mat3 (Vec 0 (- vz n) (vy n)) (Vec (- - vz n) 0 (- vx n)) (Vec (- vy n) (- - vx n) 0).
Lemma skew_ap : forall c n N, 0 <= c -> apv c 1 1 n N -> apm c 1 (f_skew n) (skew N).
Proof.
  intros c n N C (A1 & A2 & A3).
  assert (Z : ap c 1 1 fzero 0). { split; [reflexivity|]. unfold near. change (val fzero) with 0. rewrite Rminus_0_r, Rabs_R0. pose proof u_pos. split; [apply Rmult_le_pos; [apply Rmult_le_pos; lra | lra] | lra]. }
  unfold f_skew, skew. split; [|split]; (split; [|split]); cbn [fr0 fr1 fr2 rx ry rz fst snd row0 row1 row2 vx vy vz]; fold (rx n) (ry n) (rz n);
    repeat apply ap_neg; assumption.
Qed.
Lemma sq_entries : forall N, vnorm_sq N = 1 -> forall c A, apm c 3 A (matmul (skew N) (skew N)) -> apm c 1 A (matmul (skew N) (skew N)).
Proof.
  intros N HN c A ((a1 & a2 & a3) & (b1 & b2 & b3) & (c1 & c2 & c3)). unfold vnorm_sq in HN.
  pose proof (Rle_0_sqr (vx N)) as q1. pose proof (Rle_0_sqr (vy N)) as q2. pose proof (Rle_0_sqr (vz N)) as q3.
  pose proof (Rle_0_sqr (vx N + vy N)) as p1. pose proof (Rle_0_sqr (vx N - vy N)) as p2.
  pose proof (Rle_0_sqr (vx N + vz N)) as p3. pose proof (Rle_0_sqr (vx N - vz N)) as p4.
  pose proof (Rle_0_sqr (vy N + vz N)) as p5. pose proof (Rle_0_sqr (vy N - vz N)) as p6. unfold Rsqr in *.
  split; [|split]; (split; [|split]); (eapply ap_bound; [eassumption|]); rewrite Rmult_1_l; apply Rabs_le;
    unfold matmul, vdot, col, skew; cbn [row0 row1 row2 vx vy vz]; lra.
Qed.
Lemma rot_entries : forall a ax, let M := rotation_matrix a ax in
  (Rabs (vx (row0 M)) <= 1 /\ Rabs (vy (row0 M)) <= 1 /\ Rabs (vz (row0 M)) <= 1) /\
  (Rabs (vx (row1 M)) <= 1 /\ Rabs (vy (row1 M)) <= 1 /\ Rabs (vz (row1 M)) <= 1) /\
  (Rabs (vx (row2 M)) <= 1 /\ Rabs (vy (row2 M)) <= 1 /\ Rabs (vz (row2 M)) <= 1).
Proof.
  intros a ax M. destruct (C86_proper a ax) as (H & _). fold M in H.
  assert (G : forall x y z, x * x + y * y + z * z = 1 -> Rabs x <= 1 /\ Rabs y <= 1 /\ Rabs z <= 1).
  { intros x y z E. pose proof (Rle_0_sqr x). pose proof (Rle_0_sqr y). pose proof (Rle_0_sqr z). unfold Rsqr in *.
    repeat split; apply Rabs_le; split; nra. }
  pose proof (H (Vec 1 0 0) (Vec 1 0 0)) as H1. pose proof (H (Vec 0 1 0) (Vec 0 1 0)) as H2. pose proof (H (Vec 0 0 1) (Vec 0 0 1)) as H3.
  clearbody M. destruct M as [[a1 a2 a3] [b1 b2 b3] [c1 c2 c3]]. unfold mapply, vdot in H1, H2, H3. cbn [row0 row1 row2 vx vy vz] in *.
  destruct (G a1 b1 c1 ltac:(lra)) as (? & ? & ?). destruct (G a2 b2 c2 ltac:(lra)) as (? & ? & ?). destruct (G a3 b3 c3 ltac:(lra)) as (? & ? & ?).
  repeat split; assumption.
Qed.

Lemma rotation_ap : forall fsin fcos k angle theta phi M, 0 <= k <= 10 ->
  trig_ok k fsin sin angle -> trig_ok k fcos cos angle ->
  trig_ok k fsin sin theta -> trig_ok k fcos cos theta -> trig_ok k fsin sin phi -> trig_ok k fcos cos phi ->
  f_rotation_value fsin fcos angle theta phi M ->
  apm (28 * k + 64) 1 M (rotation_matrix (val angle) (Angles (val theta) (val phi))).
Proof.
  intros fsin fcos k angle theta phi M K (F1 & T1) (F2 & T2) T3 T4 T5 T6 (sq & Hsq & EM). pose proof scale_1 as S1.
  pose proof (axis_ap fsin fcos k theta phi K T3 T4 T5 T6) as HN. set (N := unit_axis (val phi) (val theta)) in *.
  pose proof (unit_axis_norm (val phi) (val theta)) as NN. fold N in NN.
  set (sk := f_skew (f_axis fsin fcos theta phi)) in *.
  assert (HS : apm (2 * k + 2) 1 sk (skew N)) by (apply skew_ap; [lra | exact HN]).
  pose proof (sq_entries N NN _ _ (matmul_ap _ _ _ _ _ _ _ Hsq HS HS ltac:(lra) ltac:(lra))) as HQ.
  assert (N1 : forall f g x, Rabs (val (f x) - g (val x)) <= k * u -> near k 1 (val (f x)) (g (val x))) by (intros; unfold near; lra).
  assert (As : ap k 1 1 (fsin angle) (sin (val angle))) by (split; [exact F1|]; split; [apply N1; exact T1|]; rewrite Rmult_1_l; apply sin_abs).
  assert (Ac : ap k 1 1 (fcos angle) (cos (val angle))) by (split; [exact F2|]; split; [apply N1; exact T2|]; rewrite Rmult_1_l; apply cos_abs).
  assert (A1 : ap 0 1 1 fone 1) by (destruct one_val as (V & F); apply ap_val; [exact F | exact V | rewrite Rabs_pos_eq; lra | lra]).
  pose proof (ap_sub' (k + 3) _ _ _ _ _ _ _ _ _ A1 Ac S1 ltac:(lra) ltac:(lra) ltac:(lra) ltac:(lra) ltac:(lra)) as A1c.
  pose proof (smul_ap _ _ _ _ _ _ _ _ As HS ltac:(lra) ltac:(lra) ltac:(lra) ltac:(lra)) as P1.
  pose proof (smul_ap _ _ _ _ _ _ _ _ A1c HQ ltac:(lra) ltac:(lra) ltac:(lra) ltac:(lra)) as P2.
  pose proof (matadd_ap _ _ _ _ _ _ _ _ P1 P2 ltac:(lra) ltac:(lra) ltac:(lra) ltac:(lra)) as P3.
  set (rot := f_matadd (f_smul (fsin angle) sk) (f_smul (fsub fone (fcos angle)) sq)) in *.
  set (RR := matadd (smul (sin (val angle)) (skew N)) (smul (1 - cos (val angle)) (matmul (skew N) (skew N)))) in *.
  assert (ER : rotation_matrix (val angle) (Angles (val theta) (val phi)) =
    Mat3 (Vec (vx (row0 RR) + 1) (vy (row0 RR)) (vz (row0 RR))) (Vec (vx (row1 RR)) (vy (row1 RR) + 1) (vz (row1 RR))) (Vec (vx (row2 RR)) (vy (row2 RR)) (vz (row2 RR) + 1))) by reflexivity.
  pose proof (rot_entries (val angle) (Angles (val theta) (val phi))) as RE. cbv zeta in RE, EM. rewrite ER in *. cbn [row0 row1 row2 vx vy vz] in RE.
  destruct P3 as ((a1 & a2 & a3) & (b1 & b2 & b3) & (c1 & c2 & c3)). destruct RE as ((e1 & e2 & e3) & (g1 & g2 & g3) & (h1 & h2 & h3)).
  assert (OFF : forall c B x X, ap c B 1 x X -> 0 <= c <= 28 * k + 62 -> Rabs X <= 1 -> ap (28 * k + 64) 1 1 x X).
  { intros c B x X H HC HX. eapply ap_weak; [eapply (ap_bound _ _ 1); [exact H | lra] | ..]; lra. }
  assert (DI : forall c B x X, ap c B 1 x X -> 0 <= c <= 28 * k + 62 -> Rabs (X + 1) <= 1 -> ap (28 * k + 64) 1 1 (fadd x fone) (X + 1)).
  { intros c B x X H HC HX. eapply (ap_add 1); [exact H | exact A1 | exact S1 | lra | lra | lra | lra | lra]. }
  subst M. split; [|split]; (split; [|split]); cbn [fr0 fr1 fr2 rx ry rz fst snd row0 row1 row2 vx vy vz];
    first [eapply DI; [eassumption | lra | eassumption] | eapply OFF; [eassumption | lra | eassumption]].
Qed.

(** * C200: the rotation matrix *)
(** The real numbers an array of doubles stands for; componentwise closeness. *)
Definition vec3_of (v : rec3) : vec := Vec (val (rx v)) (val (ry v)) (val (rz v)).
Definition mat_of (A : fmat) : mat3 := Mat3 (vec3_of (fr0 A)) (vec3_of (fr1 A)) (vec3_of (fr2 A)).
Definition finv (v : rec3) : Prop := fin (rx v) /\ fin (ry v) /\ fin (rz v).
Definition vclose (e : R) (a b : vec) : Prop := Rabs (vx a - vx b) <= e /\ Rabs (vy a - vy b) <= e /\ Rabs (vz a - vz b) <= e.

Lemma apm_cols : forall c B A M, apm c B A M -> finv (fr0 A) /\ finv (fr1 A) /\ finv (fr2 A) /\
  vclose (c * u) (mapply (mat_of A) (Vec 1 0 0)) (mapply M (Vec 1 0 0)) /\
  vclose (c * u) (mapply (mat_of A) (Vec 0 1 0)) (mapply M (Vec 0 1 0)) /\
  vclose (c * u) (mapply (mat_of A) (Vec 0 0 1)) (mapply M (Vec 0 0 1)).
Proof.
  intros c B A M (((f1 & n1 & _) & (f2 & n2 & _) & (f3 & n3 & _)) & ((f4 & n4 & _) & (f5 & n5 & _) & (f6 & n6 & _)) & ((f7 & n7 & _) & (f8 & n8 & _) & (f9 & n9 & _))).
  unfold near in *. rewrite Rmult_1_r in *.
  split; [repeat split; assumption|]. split; [repeat split; assumption|]. split; [repeat split; assumption|].
  unfold mapply, mat_of, vec3_of, vdot, vclose; cbn [row0 row1 row2 vx vy vz].
  split; [|split]; (split; [|split]);
    match goal with |- Rabs (?a * _ + ?b * _ + ?c * _ - (?d * _ + ?e * _ + ?f * _)) <= _ => idtac end;
    match goal with |- Rabs ?X <= _ => ring_simplify X end; assumption.
Qed.

(** Every entry of the computed matrix is within (28 k + 64) u of the exact rotation by [angle] about the axis, when sin and cos are
    computed with errors of at most k u. *)
Theorem C200_rotation_matrix : forall fsin fcos k angle theta phi M, 0 <= k <= 10 ->
  trig_ok k fsin sin angle -> trig_ok k fcos cos angle ->
  trig_ok k fsin sin theta -> trig_ok k fcos cos theta -> trig_ok k fsin sin phi -> trig_ok k fcos cos phi ->
  f_rotation_value fsin fcos angle theta phi M ->
  finv (fr0 M) /\ finv (fr1 M) /\ finv (fr2 M) /\
  exists f, rotates f (val angle) (unit_axis (val phi) (val theta)) /\
    forall e, e = Vec 1 0 0 \/ e = Vec 0 1 0 \/ e = Vec 0 0 1 -> vclose ((28 * k + 64) * u) (mapply (mat_of M) e) (f e).
Proof.
  intros fsin fcos k angle theta phi M K T1 T2 T3 T4 T5 T6 H.
  destruct (apm_cols _ _ _ _ (rotation_ap fsin fcos k angle theta phi M K T1 T2 T3 T4 T5 T6 H)) as (F0 & F1 & F2 & C0 & C1 & C2).
  split; [exact F0|]. split; [exact F1|]. split; [exact F2|].
  exists (mapply (rotation_matrix (val angle) (Angles (val theta) (val phi)))).
  split; [apply (C86_rotation (val angle) (Angles (val theta) (val phi)))|]. intros e [-> | [-> | ->]]; assumption.
Qed.
Print Assumptions C200_rotation_matrix.

(** Whatever the order of the additions, a value exists: the theorem is not about an empty set. *)
Lemma dot3_exists : forall a b, exists s, f_dot3_value a b s.
Proof. intros a b. eexists. eexists. split; [apply Permutation_refl|]. apply D_add, D_fma, D_first. Qed.
Lemma mapply_exists : forall A v, exists w, f_mapply_value A v w.
Proof.
  intros A v. destruct (dot3_exists v (fr0 A)) as (x & X). destruct (dot3_exists v (fr1 A)) as (y & Y). destruct (dot3_exists v (fr2 A)) as (z & Z).
  exists (x, y, z). split; [exact X | split; [exact Y | exact Z]].
Qed.
Theorem C200_value_exists : forall fsin fcos angle theta phi, exists M, f_rotation_value fsin fcos angle theta phi M.
Proof.
  intros. unfold f_rotation_value. cbv zeta. set (S := f_skew _). destruct (mapply_exists S (fcol 0 S)) as (a & A). destruct (mapply_exists S (fcol 1 S)) as (b & B).
  destruct (mapply_exists S (fcol 2 S)) as (c & C). eexists. exists (FMat (rx a, rx b, rx c) (ry a, ry b, ry c) (rz a, rz b, rz c)). split; [|reflexivity].
  split; [|split]; [destruct A as (A1 & A2 & A3) | destruct B as (A1 & A2 & A3) | destruct C as (A1 & A2 & A3)]; (split; [exact A1 | split; [exact A2 | exact A3]]).
Qed.
Print Assumptions C200_value_exists.

Lemma norm_pert : forall a b e, 0 <= e -> vclose e a b -> Rabs (sqrt (vdot a a) - sqrt (vdot b b)) <= 2 * e.
Proof.
  intros a b e E (H1 & H2 & H3). set (A := sqrt (vdot a a)). set (B := sqrt (vdot b b)).
  assert (QA : A * A = vdot a a) by (apply sqrt_sqrt; unfold vdot; pose proof (Rle_0_sqr (vx a)); pose proof (Rle_0_sqr (vy a)); pose proof (Rle_0_sqr (vz a)); unfold Rsqr in *; lra).
  assert (QB : B * B = vdot b b) by (apply sqrt_sqrt; unfold vdot; pose proof (Rle_0_sqr (vx b)); pose proof (Rle_0_sqr (vy b)); pose proof (Rle_0_sqr (vz b)); unfold Rsqr in *; lra).
  assert (PA : 0 <= A) by apply sqrt_pos. assert (PB : 0 <= B) by apply sqrt_pos.
  assert (SQ : forall t, Rabs t <= e -> t * t <= e * e). { intros t Ht. assert (t * t = Rabs t * Rabs t) as -> by (rewrite <- Rabs_mult; symmetry; apply Rabs_pos_eq; apply (Rle_0_sqr t)). apply Rmult_le_compat; try apply Rabs_pos; assumption. }
  pose proof (SQ _ H1) as S1. pose proof (SQ _ H2) as S2. pose proof (SQ _ H3) as S3.
  assert (CSI : vdot a b <= A * B).
  { apply Rsqr_incr_0_var; [|apply Rmult_le_pos; assumption]. unfold Rsqr. replace (A * B * (A * B)) with (A * A * (B * B)) by ring. rewrite QA, QB. unfold vdot.
    pose proof (Rle_0_sqr (vx a * vy b - vy a * vx b)). pose proof (Rle_0_sqr (vx a * vz b - vz a * vx b)). pose proof (Rle_0_sqr (vy a * vz b - vz a * vy b)). unfold Rsqr in *. lra. }
  assert (D2 : (A - B) * (A - B) <= 4 * (e * e)).
  { replace ((A - B) * (A - B)) with (A * A + B * B - 2 * (A * B)) by ring. rewrite QA, QB. pose proof (Rle_0_sqr e) as qe. unfold Rsqr in qe. clearbody A B. unfold vdot in *. lra. }
  assert (Rsqr (A - B) <= Rsqr (2 * e)) by (unfold Rsqr; lra). apply Rsqr_le_abs_0 in H. rewrite (Rabs_pos_eq (2 * e)) in H by lra. exact H.
Qed.

(** Applied (exactly) to any vector, the computed matrix keeps its length up to 6 (28 k + 64) u. *)
Theorem C200_keeps_lengths : forall fsin fcos k angle theta phi M v, 0 <= k <= 10 ->
  trig_ok k fsin sin angle -> trig_ok k fcos cos angle ->
  trig_ok k fsin sin theta -> trig_ok k fcos cos theta -> trig_ok k fsin sin phi -> trig_ok k fcos cos phi ->
  f_rotation_value fsin fcos angle theta phi M ->
  let len := fun w => sqrt (vdot w w) in
  Rabs (len (mapply (mat_of M) v) - len v) <= 6 * (28 * k + 64) * u * len v.
Proof.
  intros fsin fcos k angle theta phi M v K T1 T2 T3 T4 T5 T6 H len.
  pose proof (rotation_ap fsin fcos k angle theta phi M K T1 T2 T3 T4 T5 T6 H) as RA.
  set (RR := rotation_matrix (val angle) (Angles (val theta) (val phi))) in *.
  assert (LE : len (mapply RR v) = len v) by (unfold len; f_equal; apply (proj1 (C86_proper _ _))). rewrite <- LE at 1.
  assert (LV : 0 <= len v) by apply sqrt_pos. pose proof u_pos as U.
  assert (CO : Rabs (vx v) <= len v /\ Rabs (vy v) <= len v /\ Rabs (vz v) <= len v).
  { pose proof (Rle_0_sqr (vx v)) as q1. pose proof (Rle_0_sqr (vy v)) as q2. pose proof (Rle_0_sqr (vz v)) as q3. unfold len.
    repeat split; rewrite <- sqrt_Rsqr_abs; apply sqrt_le_1_alt; unfold vdot, Rsqr in *; lra. }
  destruct CO as (L1 & L2 & L3). set (c := 28 * k + 64) in *. assert (C0 : 0 <= c) by (unfold c; lra).
  replace (6 * c * u * len v) with (2 * (3 * (c * u * len v))) by ring. apply norm_pert.
  - apply Rmult_le_pos; [lra|]. apply Rmult_le_pos; [apply Rmult_le_pos; lra | exact LV].
  - destruct RA as (((f1 & n1 & _) & (f2 & n2 & _) & (f3 & n3 & _)) & ((f4 & n4 & _) & (f5 & n5 & _) & (f6 & n6 & _)) & ((f7 & n7 & _) & (f8 & n8 & _) & (f9 & n9 & _))).
    unfold near in *. rewrite Rmult_1_r in *.
    assert (G : forall a b d a' b' d', Rabs (a - a') <= c * u -> Rabs (b - b') <= c * u -> Rabs (d - d') <= c * u ->
      Rabs (a * vx v + b * vy v + d * vz v - (a' * vx v + b' * vy v + d' * vz v)) <= 3 * (c * u * len v)).
    { intros a b d a' b' d' H1 H2 H3. replace (a * vx v + b * vy v + d * vz v - (a' * vx v + b' * vy v + d' * vz v)) with ((a - a') * vx v + (b - b') * vy v + (d - d') * vz v) by ring.
      assert (X1 : Rabs ((a - a') * vx v) <= c * u * len v) by (rewrite Rabs_mult; apply Rmult_le_compat; try apply Rabs_pos; assumption).
      assert (X2 : Rabs ((b - b') * vy v) <= c * u * len v) by (rewrite Rabs_mult; apply Rmult_le_compat; try apply Rabs_pos; assumption).
      assert (X3 : Rabs ((d - d') * vz v) <= c * u * len v) by (rewrite Rabs_mult; apply Rmult_le_compat; try apply Rabs_pos; assumption).
      eapply Rle_trans; [apply Rabs_triang|]. pose proof (Rabs_triang ((a - a') * vx v) ((b - b') * vy v)). lra. }
    unfold vclose, mapply, mat_of, vec3_of, vdot; cbn [row0 row1 row2 vx vy vz]. split; [|split]; apply G; assumption.
Qed.
Print Assumptions C200_keeps_lengths.

(** * C201: split_momentum *)
Definition mom4 (p : fmom) : mom := Mom (val (mx p)) (val (my p)) (val (mz p)) (val (me p)).
Definition fin4 (p : fmom) : Prop := fin (mx p) /\ fin (my p) /\ fin (mz p) /\ fin (me p).

(** The first child is z times the rotated parent up to (84 k + 208) u of its length, componentwise and in length; its energy is z times
    the parent's, rounded once. *)
Theorem C201_first_child : forall fsin fcos k parent z angle theta phi c0 c1, 0 <= k <= 10 ->
  trig_ok k fsin sin angle -> trig_ok k fcos cos angle ->
  trig_ok k fsin sin theta -> trig_ok k fcos cos theta -> trig_ok k fsin sin phi -> trig_ok k fcos cos phi ->
  fin4 parent -> fin z -> Rabs (val z) <= 1 -> Rabs (val (me parent)) <= huge / 2 -> norm3 (mom4 parent) <= 2 ^ 960 ->
  / 2 ^ 960 <= Rabs (val z) * norm3 (mom4 parent) ->
  f_split_value fsin fcos parent z angle theta phi (c0, c1) ->
  let size := Rabs (val z) * norm3 (mom4 parent) in
  fin4 c0 /\
  (exists f, rotates f (val angle) (unit_axis (val phi) (val theta)) /\
     vclose ((84 * k + 208) * u * size) (vec_of (mom4 c0)) (f (vscale (val z) (vec_of (mom4 parent))))) /\
  Rabs (norm3 (mom4 c0) - size) <= 2 * (84 * k + 208) * u * size /\
  val (me c0) = nearest (val z * val (me parent)).
Proof.
  intros fsin fcos k parent z angle theta phi c0 c1 K T1 T2 T3 T4 T5 T6 (Fx & Fy & Fz & Fe) FZ Z1 E1 N1 S1 (M & v & HM & HV & EC) size.
  pose proof (rotation_ap fsin fcos k angle theta phi M K T1 T2 T3 T4 T5 T6 HM) as RA.
  set (RR := rotation_matrix (val angle) (Angles (val theta) (val phi))) in *. set (N := norm3 (mom4 parent)) in *.
  assert (N0 : 0 <= N) by apply sqrt_pos. assert (Z0 : 0 <= Rabs (val z)) by apply Rabs_pos. assert (Sz : 0 <= size) by (apply Rmult_le_pos; assumption).
  assert (SC : scale (N * Rabs (val z))).
  { split.
    - rewrite (Rmult_comm N). eapply Rle_trans; [|exact S1]. unfold min_normal. change 1022%nat with (62 + 960)%nat. rewrite pow_add, Rinv_mult.
      assert (A : 1000000000 * / 2 ^ 62 <= 1). { apply Rmult_le_reg_r with (2 ^ 62); [apply pow2_pos|]. rewrite Rmult_assoc, Rinv_l by (apply Rgt_not_eq, pow2_pos). cbn; lra. }
      pose proof (ipow2_pos 960) as I. rewrite <- Rmult_assoc. apply Rle_trans with (1 * / 2 ^ 960); [|lra]. apply Rmult_le_compat_r; lra.
    - apply Rle_trans with (N * 1); [apply Rmult_le_compat_l; lra | lra]. }
  destruct (comp_le (mom4 parent)) as (B1 & B2 & B3). fold N in B1, B2, B3. cbn [mom4 px py pz] in B1, B2, B3.
  assert (AZ : ap 0 1 (Rabs (val z)) z (val z)) by (apply ap_val; [exact FZ | reflexivity | lra | exact Z0]).
  assert (SV : apv (102 / 100) 1 size (fmul (mx parent) z, fmul (my parent) z, fmul (mz parent) z) (vscale (val z) (vec_of (mom4 parent)))).
  { assert (G : forall x, fin x -> Rabs (val x) <= N -> ap (102 / 100) 1 size (fmul x z) (val z * val x)).
    { intros x F B. unfold size. rewrite (Rmult_comm (Rabs (val z))). eapply ap_weak; [eapply ap_eq; [eapply (ap_mul' (102 / 100)); [eapply (ap_val 1 N); [exact F | reflexivity | lra | exact N0] | exact AZ | reflexivity | exact SC | ..]|]|..]; try lra.
      }
    unfold vscale, vec_of, mom4. split; [|split]; cbn [rx ry rz fst snd vx vy vz px py pz]; apply G; assumption. }
  assert (SC' : scale size) by (unfold size; rewrite Rmult_comm; exact SC).
  destruct (mapply_ap (102 / 100) (28 * k + 64) size M RR _ _ v HV RA SV SC' Sz ltac:(lra) ltac:(lra)) as (V1 & V2 & V3).
  cbv zeta in EC. injection EC as E0 _. subst c0.
  pose proof huge_pos as HG.
  destruct (fmul_ok (me parent) z Fe FZ) as (Ve & Fe' & _). { apply no_overflow. rewrite Rabs_mult. apply Rle_trans with (huge / 2 * 1); [apply Rmult_le_compat; try apply Rabs_pos; lra | lra]. }
  set (w := mapply RR (vscale (val z) (vec_of (mom4 parent)))) in *.
  assert (VC : vclose ((84 * k + 208) * u * size) (vec_of (mom4 (rx v, ry v, rz v, fmul (me parent) z))) w).
  { assert (G : forall x X, ap (3 * (102 / 100 + (28 * k + 64)) + 12) 3 size x X -> Rabs (val x - X) <= (84 * k + 208) * u * size).
    { intros x X (_ & H & _). unfold near in H. eapply Rle_trans; [exact H|]. apply Rmult_le_compat_r; [exact Sz|]. apply Rmult_le_compat_r; [left; apply u_pos | lra]. }
    unfold vclose, vec_of, mom4; cbn [px py pz vx vy vz mx my mz fst snd]. split; [|split]; apply G; assumption. }
  split; [split; [apply V1|split; [apply V2|split; [apply V3 | exact Fe']]]|].
  split; [|split].
  - exists (mapply RR). split; [apply (C86_rotation (val angle) (Angles (val theta) (val phi)))|]. exact VC.
  - assert (LW : sqrt (vdot w w) = size).
    { unfold w, RR. rewrite (proj1 (C86_proper _ _)). unfold size, N, norm3. rewrite <- sqrt_Rsqr_abs, <- sqrt_mult_alt by apply Rle_0_sqr. f_equal. unfold Rsqr, vdot, vscale, vec_of, p_sq; cbn [vx vy vz]. ring. }
    rewrite <- LW at 1. replace (2 * (84 * k + 208) * u * size) with (2 * ((84 * k + 208) * u * size)) by ring.
    refine (norm_pert _ w _ _ VC). apply Rmult_le_pos; [apply Rmult_le_pos; [lra | left; apply u_pos] | exact Sz].
  - cbn [me snd]. rewrite Ve. f_equal. ring.
Qed.
Print Assumptions C201_first_child.

(** The two children add up to the parent, component by component, up to one rounding of the second child. *)
Theorem C201_conservation : forall fsin fcos parent z angle theta phi c0 c1, fin4 parent -> fin4 c0 ->
  (forall f, In f [mx; my; mz; me] -> Rabs (val (f parent)) + Rabs (val (f c0)) <= huge) ->
  f_split_value fsin fcos parent z angle theta phi (c0, c1) ->
  fin4 c1 /\ forall f, In f [mx; my; mz; me] -> Rabs (val (f c0) + val (f c1) - val (f parent)) <= u * Rabs (val (f parent) - val (f c0)).
Proof.
  intros fsin fcos parent z angle theta phi c0 c1 (F1 & F2 & F3 & F4) (G1 & G2 & G3 & G4) HB (M & v & _ & _ & EC). cbv zeta in EC. injection EC as E0 E1.
  pose proof (C146_split (mx parent) (mx c0) F1 G1 (HB mx ltac:(cbn; auto))) as (_ & A1 & _ & B1 & _).
  pose proof (C146_split (my parent) (my c0) F2 G2 (HB my ltac:(cbn; auto))) as (_ & A2 & _ & B2 & _).
  pose proof (C146_split (mz parent) (mz c0) F3 G3 (HB mz ltac:(cbn; auto))) as (_ & A3 & _ & B3 & _).
  pose proof (C146_split (me parent) (me c0) F4 G4 (HB me ltac:(cbn; auto))) as (_ & A4 & _ & B4 & _).
  subst c0 c1. cbn [f_children fst snd mx my mz me] in *. split; [repeat split; assumption|].
  intros f [<- | [<- | [<- | [<- | []]]]]; assumption.
Qed.
Print Assumptions C201_conservation.

(** * C202: collinear splits *)
Lemma sel_mul0 : forall a b, fin a -> fin b -> val b = 0 -> fin (fmul a b) /\ val (fmul a b) = 0.
Proof.
  intros a b Fa Fb B. destruct (fmul_ok a b Fa Fb) as (V & F & _); rewrite B, Rmult_0_r, nearest_0 in *.
  - rewrite Rabs_R0. apply bpow_gt_0.
  - split; assumption.
Qed.
Lemma sel_mul1 : forall a b, fin a -> fin b -> val b = 1 -> fin (fmul a b) /\ val (fmul a b) = val a.
Proof.
  intros a b Fa Fb B. assert (E : nearest (val a * val b) = val a) by (rewrite B, Rmult_1_r; apply nearest_id, val_fmt).
  destruct (fmul_ok a b Fa Fb) as (V & F & _); rewrite E in *; [apply val_lt | split; assumption].
Qed.
Lemma sel_add : forall x y X, fin x -> fin y -> val x + val y = val X -> fin (fadd x y) /\ val (fadd x y) = val X.
Proof.
  intros x y X Fx Fy E. assert (N : nearest (val x + val y) = val X) by (rewrite E; apply nearest_id, val_fmt).
  destruct (fadd_ok x y Fx Fy) as (V & F); rewrite N in *; [apply val_lt | split; assumption].
Qed.
Lemma sel_fma : forall a b s X, fin a -> fin b -> fin s -> val a * val b + val s = val X -> fin (ffma a b s) /\ val (ffma a b s) = val X.
Proof.
  intros a b s X Fa Fb Fs E. assert (N : nearest (val a * val b + val s) = val X) by (rewrite E; apply nearest_id, val_fmt).
  destruct (ffma_ok a b s Fa Fb Fs) as (V & F); rewrite N in *; [apply val_lt | split; assumption].
Qed.
Lemma dot_zero : forall ps s, dot_value ps s -> Forall (fun p => fin (fst p) /\ fin (snd p) /\ val (snd p) = 0) ps -> fin s /\ val s = 0.
Proof.
  intros ps s H. induction H as [|a b|a b ps s H IH|a b ps s H IH]; intros HF.
  - split; reflexivity.
  - inversion HF as [|? ? (Fa & Fb & E) _]; subst. apply sel_mul0; assumption.
  - inversion HF as [|? ? (Fa & Fb & E) R]; subst. destruct (IH R) as (Fs & Es). cbn [fst snd] in *. destruct (sel_mul0 a b Fa Fb E) as (Fm & Em).
    apply (sel_add s (fmul a b) fzero); try assumption. change (val fzero) with 0. rewrite Es, Em. ring.
  - inversion HF as [|? ? (Fa & Fb & E) R]; subst. destruct (IH R) as (Fs & Es). cbn [fst snd] in *.
    apply (sel_fma a b s fzero); try assumption. change (val fzero) with 0. rewrite Es, E. ring.
Qed.
Lemma dot_select : forall ps s, dot_value ps s -> Forall (fun p => fin (fst p) /\ fin (snd p)) ps ->
  forall l1 a b l2, ps = l1 ++ (a, b) :: l2 -> val b = 1 -> Forall (fun p => val (snd p) = 0) (l1 ++ l2) -> fin s /\ val s = val a.
Proof.
  intros ps s H. induction H as [|a0 b0|a0 b0 ps s H IH|a0 b0 ps s H IH]; intros HF l1 a b l2 EL B HZ.
  - destruct l1; discriminate.
  - destruct l1 as [|p [|q l1]]; try discriminate. injection EL as <- <- <-. inversion HF as [|? ? (Fa & Fb) _]; subst. apply sel_mul1; assumption.
  - inversion HF as [|? ? (Fa & Fb) R]; subst. cbn [fst snd] in *. destruct l1 as [|p l1].
    + injection EL as <- <- <-. cbn [app] in HZ. destruct (dot_zero ps s H) as (Fs & Es).
      { apply Forall_forall. intros q Hq. rewrite Forall_forall in R, HZ. destruct (R q Hq). auto. }
      destruct (sel_mul1 a0 b0 Fa Fb B) as (Fm & Em). apply sel_add; try assumption. rewrite Es, Em. ring.
    + injection EL as <- ->. cbn [app] in HZ. inversion HZ as [|? ? Z0 HZ']; subst. cbn [snd] in Z0.
      destruct (IH R l1 a b l2 eq_refl B HZ') as (Fs & Es). destruct (sel_mul0 a0 b0 Fa Fb Z0) as (Fm & Em).
      apply sel_add; try assumption. rewrite Es, Em. ring.
  - inversion HF as [|? ? (Fa & Fb) R]; subst. cbn [fst snd] in *. destruct l1 as [|p l1].
    + injection EL as <- <- <-. cbn [app] in HZ. destruct (dot_zero ps s H) as (Fs & Es).
      { apply Forall_forall. intros q Hq. rewrite Forall_forall in R, HZ. destruct (R q Hq). auto. }
      apply sel_fma; try assumption. rewrite Es, B. ring.
    + injection EL as <- ->. cbn [app] in HZ. inversion HZ as [|? ? Z0 HZ']; subst. cbn [snd] in Z0.
      destruct (IH R l1 a b l2 eq_refl B HZ') as (Fs & Es). apply sel_fma; try assumption. rewrite Es, Z0. ring.
Qed.
Lemma perm_place : forall (l ps : list (f64 * f64)) q l1 l2, Permutation ps l -> l = l1 ++ q :: l2 -> exists k1 k2, ps = k1 ++ q :: k2 /\ Permutation (k1 ++ k2) (l1 ++ l2).
Proof.
  intros l ps q l1 l2 P ->. assert (I : In q ps) by (apply (Permutation_in _ (Permutation_sym P)), in_elt). apply in_split in I as (k1 & k2 & ->).
  exists k1, k2. split; [reflexivity|]. apply (Permutation_app_inv k1 k2 l1 l2 q P).
Qed.
(** A row (.., 1, ..) of the identity matrix selects a component exactly. *)
Lemma dot3_select : forall v r s (i : nat), f_dot3_value v r s -> finv v -> finv r ->
  (i = 0%nat -> val (rx r) = 1 /\ val (ry r) = 0 /\ val (rz r) = 0 -> fin s /\ val s = val (rx v)) /\
  (i = 1%nat -> val (rx r) = 0 /\ val (ry r) = 1 /\ val (rz r) = 0 -> fin s /\ val s = val (ry v)) /\
  (i = 2%nat -> val (rx r) = 0 /\ val (ry r) = 0 /\ val (rz r) = 1 -> fin s /\ val s = val (rz v)).
Proof.
  intros v r s i (ps & P & H) (V1 & V2 & V3) (R1 & R2 & R3).
  assert (FA : Forall (fun p => fin (fst p) /\ fin (snd p)) ps).
  { eapply Permutation_Forall; [apply Permutation_sym; exact P|]. repeat apply Forall_cons; try apply Forall_nil; cbn [fst snd]; split; assumption. }
  assert (G : forall l1 a b l2, [(rx v, rx r); (ry v, ry r); (rz v, rz r)] = l1 ++ (a, b) :: l2 -> val b = 1 -> Forall (fun p => val (snd p) = 0) (l1 ++ l2) -> fin s /\ val s = val a).
  { intros l1 a b l2 E B Z. destruct (perm_place _ ps (a, b) l1 l2 P E) as (k1 & k2 & E' & P'). apply (dot_select ps s H FA k1 a b k2 E' B).
    eapply Permutation_Forall; [apply Permutation_sym; exact P' | exact Z]. }
  split; [|split]; intros _ (E1 & E2 & E3).
  - apply (G [] _ _ [(ry v, ry r); (rz v, rz r)] eq_refl E1). repeat apply Forall_cons; try apply Forall_nil; assumption.
  - apply (G [(rx v, rx r)] _ _ [(rz v, rz r)] eq_refl E2). repeat apply Forall_cons; try apply Forall_nil; assumption.
  - apply (G [(rx v, rx r); (ry v, ry r)] _ _ [] eq_refl E3). repeat apply Forall_cons; try apply Forall_nil; assumption.
Qed.

(** A rotation by an angle whose computed sine is 0 and cosine 1 (such as 0.0) is exactly the identity matrix, whatever the axis. *)
Theorem C202_identity : forall fsin fcos k angle theta phi M, 0 <= k <= 10 ->
  fin (fsin angle) -> val (fsin angle) = 0 -> fin (fcos angle) -> val (fcos angle) = 1 ->
  trig_ok k fsin sin theta -> trig_ok k fcos cos theta -> trig_ok k fsin sin phi -> trig_ok k fcos cos phi ->
  f_rotation_value fsin fcos angle theta phi M ->
  finv (fr0 M) /\ finv (fr1 M) /\ finv (fr2 M) /\ mat_of M = Mat3 (Vec 1 0 0) (Vec 0 1 0) (Vec 0 0 1).
Proof.
  intros fsin fcos k angle theta phi M K Fs Es Fc Ec T3 T4 T5 T6 (sq & Hsq & EM).
  pose proof (axis_ap fsin fcos k theta phi K T3 T4 T5 T6) as HN. set (N := unit_axis (val phi) (val theta)) in *.
  set (sk := f_skew (f_axis fsin fcos theta phi)) in *.
  assert (HS : apm (2 * k + 2) 1 sk (skew N)) by (apply skew_ap; [lra | exact HN]).
  pose proof (matmul_ap _ _ _ _ _ _ _ Hsq HS HS ltac:(lra) ltac:(lra)) as HQ.
  destruct one_val as (V1 & F1).
  assert (D : fin (fsub fone (fcos angle)) /\ val (fsub fone (fcos angle)) = 0).
  { assert (Nn : nearest (val fone - val (fcos angle)) = 0) by (rewrite V1, Ec; replace (1 - 1) with 0 by ring; apply nearest_0).
    destruct (fsub_ok fone (fcos angle) F1 Fc) as (V & F & _); rewrite Nn in *; [rewrite Rabs_R0; apply bpow_gt_0 | split; assumption]. }
  destruct D as (Fd & Ed). set (d := fsub fone (fcos angle)) in *.
  assert (Z : forall x y, fin x -> fin y -> fin (fadd (fmul (fsin angle) x) (fmul d y)) /\ val (fadd (fmul (fsin angle) x) (fmul d y)) = 0).
  { intros x y Fx Fy. destruct (sel_mul0 x (fsin angle) Fx Fs Es) as (A1 & A2). destruct (sel_mul0 y d Fy Fd Ed) as (B1 & B2).
    assert (A1' : fin (fmul (fsin angle) x) /\ val (fmul (fsin angle) x) = 0).
    { destruct (fmul_ok (fsin angle) x Fs Fx) as (V & F & _); rewrite Es, Rmult_0_l, nearest_0 in *; [rewrite Rabs_R0; apply bpow_gt_0 | split; assumption]. }
    assert (B1' : fin (fmul d y) /\ val (fmul d y) = 0).
    { destruct (fmul_ok d y Fd Fy) as (V & F & _); rewrite Ed, Rmult_0_l, nearest_0 in *; [rewrite Rabs_R0; apply bpow_gt_0 | split; assumption]. }
    destruct A1' as (a1 & a2). destruct B1' as (b1 & b2). apply (sel_add _ _ fzero); try assumption. change (val fzero) with 0. rewrite a2, b2. ring. }
  assert (O : forall x, fin x -> val x = 0 -> fin (fadd x fone) /\ val (fadd x fone) = 1).
  { intros x F E. destruct (sel_add x fone fone F F1 ltac:(rewrite E, V1; ring)) as (X & Y). split; [exact X | rewrite Y; exact V1]. }
  destruct HS as (((f1 & _) & (f2 & _) & (f3 & _)) & ((f4 & _) & (f5 & _) & (f6 & _)) & ((f7 & _) & (f8 & _) & (f9 & _))).
  destruct HQ as (((g1 & _) & (g2 & _) & (g3 & _)) & ((g4 & _) & (g5 & _) & (g6 & _)) & ((g7 & _) & (g8 & _) & (g9 & _))).
  cbv zeta in EM. subst M. cbn [f_matadd f_smul fr0 fr1 fr2 rx ry rz fst snd]. fold (rx (fr0 sk)) (ry (fr0 sk)) (rz (fr0 sk)).
  destruct (Z _ _ f1 g1) as (Z1 & z1). destruct (Z _ _ f2 g2) as (Z2 & z2). destruct (Z _ _ f3 g3) as (Z3 & z3). destruct (Z _ _ f4 g4) as (Z4 & z4). destruct (Z _ _ f5 g5) as (Z5 & z5).
  destruct (Z _ _ f6 g6) as (Z6 & z6). destruct (Z _ _ f7 g7) as (Z7 & z7). destruct (Z _ _ f8 g8) as (Z8 & z8). destruct (Z _ _ f9 g9) as (Z9 & z9).
  destruct (O _ Z1 z1) as (O1 & o1). destruct (O _ Z5 z5) as (O5 & o5). destruct (O _ Z9 z9) as (O9 & o9).
  split; [split; [exact O1 | split; [exact Z2 | exact Z3]]|]. split; [split; [exact Z4 | split; [exact O5 | exact Z6]]|]. split; [split; [exact Z7 | split; [exact Z8 | exact O9]]|].
  unfold mat_of, vec3_of. cbn [fr0 fr1 fr2 rx ry rz fst snd]. unfold rx, ry, rz in *. cbn [fst snd] in *. rewrite o1, z2, z3, z4, o5, z6, z7, z8, o9. reflexivity.
Qed.
Print Assumptions C202_identity.

(** Splitting at such an angle is exactly collinear: every component of the first child is z times the parent's rounded once, and of the
    second child the parent's minus that, rounded once. *)
Theorem C202_collinear : forall fsin fcos k parent z angle theta phi c0 c1, 0 <= k <= 10 ->
  fin (fsin angle) -> val (fsin angle) = 0 -> fin (fcos angle) -> val (fcos angle) = 1 ->
  trig_ok k fsin sin theta -> trig_ok k fcos cos theta -> trig_ok k fsin sin phi -> trig_ok k fcos cos phi ->
  fin4 parent -> fin z -> Rabs (val z) <= 1 -> (forall f, In f [mx; my; mz; me] -> Rabs (val (f parent)) <= huge / 2) ->
  f_split_value fsin fcos parent z angle theta phi (c0, c1) ->
  fin4 c0 /\ fin4 c1 /\ forall f, In f [mx; my; mz; me] ->
    val (f c0) = nearest (val z * val (f parent)) /\ val (f c1) = nearest (val (f parent) - nearest (val z * val (f parent))).
Proof.
  intros fsin fcos k parent z angle theta phi c0 c1 K Fs Es Fc Ec T3 T4 T5 T6 (P1 & P2 & P3 & P4) FZ Z1 HB (M & v & HM & (H1 & H2 & H3) & EC).
  destruct (C202_identity fsin fcos k angle theta phi M K Fs Es Fc Ec T3 T4 T5 T6 HM) as (M1 & M2 & M3 & ME).
  unfold mat_of, vec3_of in ME. injection ME as m1 m2 m3 m4 m5 m6 m7 m8 m9. pose proof huge_pos as HG.
  assert (G : forall x, fin x -> Rabs (val x) <= huge / 2 -> fin (fmul x z) /\ val (fmul x z) = nearest (val z * val x) /\ Rabs (val (fmul x z)) <= huge / 2).
  { intros x F B. assert (BB : Rabs (val x * val z) <= Rabs (val x)).
    { rewrite Rabs_mult. rewrite <- (Rmult_1_r (Rabs (val x))) at 2. apply Rmult_le_compat_l; [apply Rabs_pos | exact Z1]. }
    destruct (fmul_ok x z F FZ) as (V & F' & _); [apply no_overflow; lra|]. split; [exact F'|]. split; [rewrite V; f_equal; ring|].
    rewrite V. eapply Rle_trans; [|exact B]. apply Rabs_le.
    assert (FF : generic_format radix2 (FLT_exp (-1074) 53) (Rabs (val x))) by (apply generic_format_abs, val_fmt).
    split; [apply nearest_ge_fmt; [apply generic_format_opp; exact FF|] | apply nearest_le_fmt; [exact FF|]]; apply Rabs_le_inv in BB; lra. }
  destruct (G _ P1 (HB mx ltac:(cbn; auto))) as (A1 & A2 & A3). destruct (G _ P2 (HB my ltac:(cbn; auto))) as (B1 & B2 & B3).
  destruct (G _ P3 (HB mz ltac:(cbn; auto))) as (C1 & C2 & C3). destruct (G _ P4 (HB me ltac:(cbn; auto))) as (D1 & D2 & D3).
  set (w := (fmul (mx parent) z, fmul (my parent) z, fmul (mz parent) z)) in *.
  assert (FW : finv w) by (repeat split; assumption).
  destruct (proj1 (dot3_select w _ _ 0 H1 FW M1) eq_refl (Logic.conj m1 (Logic.conj m2 m3))) as (X1 & X2).
  destruct (proj1 (proj2 (dot3_select w _ _ 1 H2 FW M2)) eq_refl (Logic.conj m4 (Logic.conj m5 m6))) as (Y1 & Y2).
  destruct (proj2 (proj2 (dot3_select w _ _ 2 H3 FW M3)) eq_refl (Logic.conj m7 (Logic.conj m8 m9))) as (Q1 & Q2).
  cbn [w rx ry rz fst snd] in X2, Y2, Q2. rewrite A2 in X2. rewrite B2 in Y2. rewrite C2 in Q2.
  assert (S : forall x c y, fin x -> fin c -> val c = y -> Rabs (val x) <= huge / 2 -> Rabs y <= huge / 2 -> fin (fsub x c) /\ val (fsub x c) = nearest (val x - y)).
  { intros x c y F1 F2 E U1 U2. destruct (fsub_ok x c F1 F2) as (V & F & _).
    - apply no_overflow. rewrite E. unfold Rminus. eapply Rle_trans; [apply Rabs_triang|]. rewrite Rabs_Ropp. lra.
    - rewrite E in V. split; assumption. }
  rewrite A2 in A3. rewrite B2 in B3. rewrite C2 in C3. rewrite D2 in D3.
  destruct (S _ _ _ P1 X1 X2 (HB mx ltac:(cbn; auto)) A3) as (s1 & s2). destruct (S _ _ _ P2 Y1 Y2 (HB my ltac:(cbn; auto)) B3) as (s3 & s4).
  destruct (S _ _ _ P3 Q1 Q2 (HB mz ltac:(cbn; auto)) C3) as (s5 & s6). destruct (S _ _ _ P4 D1 D2 (HB me ltac:(cbn; auto)) D3) as (s7 & s8).
  cbv zeta in EC. injection EC as E0 E1. subst c0 c1. cbn [mx my mz me fst snd] in *.
  split; [repeat split; assumption|]. split; [repeat split; assumption|].
  intros f [<- | [<- | [<- | [<- | []]]]]; cbn [mx my mz me fst snd]; split; assumption.
Qed.
Print Assumptions C202_collinear.

(** * The hypotheses are met *)
Definition ref_sin (x : f64) : f64 := of_R (sin (val x)).
Definition ref_cos (x : f64) : f64 := of_R (cos (val x)).
Lemma ref_trig : forall x, trig_ok 2 ref_sin sin x /\ trig_ok 2 ref_cos cos x.
Proof.
  assert (G : forall y, Rabs y <= 1 -> fin (of_R y) /\ Rabs (val (of_R y) - y) <= 2 * u).
  { intros y Y. destruct (of_R_ok y) as (F & V). { apply no_overflow. eapply Rle_trans; [exact Y|]. unfold huge. rewrite <- (pow1 1023). apply pow_incr. lra. }
    split; [exact F|]. rewrite V. pose proof (nearest_err_any y) as E. pose proof u_pos as U.
    assert (MN : min_normal <= 1). { unfold min_normal. apply Rle_trans with (/ 2 ^ 0); [apply pow_half; lia | cbn; lra]. }
    eapply Rle_trans; [exact E|]. apply Rle_trans with (u * 1 + u * 1); [apply Rplus_le_compat; apply Rmult_le_compat_l; lra | lra]. }
  intros x. split; unfold trig_ok, ref_sin, ref_cos; apply G; apply Rabs_le; [pose proof (SIN_bound (val x)) | pose proof (COS_bound (val x))]; lra.
Qed.
Example C201_case : exists c0 c1, f_split_value ref_sin ref_cos (lit 3 0, lit 4 0, fzero, lit 5 0) (lit 1 (-2)) (lit 1 (-1)) (lit 1 0) (lit 3 (-2)) (c0, c1) /\
  norm3 (mom4 (lit 3 0, lit 4 0, fzero, lit 5 0)) = 5 /\ val (lit 1 (-2)) = 1 / 4.
Proof.
  destruct (C200_value_exists ref_sin ref_cos (lit 1 (-1)) (lit 1 0) (lit 3 (-2))) as (M & HM).
  destruct (mapply_exists M (fmul (lit 3 0) (lit 1 (-2)), fmul (lit 4 0) (lit 1 (-2)), fmul fzero (lit 1 (-2)))) as (v & HV).
  eexists _, _. split; [exists M, v; split; [exact HM|]; split; [exact HV|]; reflexivity|].
  destruct (lit_ok 3 0 ltac:(lia) ltac:(lia)) as (V3 & _). destruct (lit_ok 4 0 ltac:(lia) ltac:(lia)) as (V4 & _). destruct (lit_ok 1 (-2) ltac:(lia) ltac:(lia)) as (Vz & _).
  split; [|rewrite Vz; cbn; lra]. unfold norm3, p_sq, mom4. cbn [px py pz mx my mz fst snd]. rewrite V3, V4. change (val fzero) with 0.
  replace (IZR 3 * bpow radix2 0 * (IZR 3 * bpow radix2 0) + IZR 4 * bpow radix2 0 * (IZR 4 * bpow radix2 0) + 0 * 0) with (5 * 5) by (cbn; ring). apply sqrt_square. lra.
Qed.
