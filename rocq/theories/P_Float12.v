(** The spherocity objective in IEEE doubles (C181). *)
From Coq Require Import ZArith Reals List Bool Lia Lra.
From Flocq Require Import Core BinarySingleNaN.
From Verif Require Import Prelude SpecReal SpecShapes RealBase Shapes ShapesProofs SpecIEEE Floats FloatBase FloatOps Floats2 P_Float P_Float4 P_Float6 Floats5 P_Float10 PiBits.
Import ListNotations.
Open Scope R_scope.

(** * Lengths of nearby vectors *)
Definition len3 (x y z : R) : R := sqrt (x * x + y * y + z * z).
Lemma len3_nonneg : forall x y z, 0 <= len3 x y z. Proof. intros; apply sqrt_pos. Qed.
Lemma len3_sq : forall x y z, len3 x y z * len3 x y z = x * x + y * y + z * z.
Proof. intros. unfold len3. apply sqrt_sqrt. pose proof (Rle_0_sqr x). pose proof (Rle_0_sqr y). pose proof (Rle_0_sqr z). unfold Rsqr in *. lra. Qed.
Lemma cauchy3 : forall x y z X Y Z, x * X + y * Y + z * Z <= len3 x y z * len3 X Y Z.
Proof.
  intros. destruct (Rle_lt_dec (x * X + y * Y + z * Z) 0) as [L|L]; [eapply Rle_trans; [exact L | apply Rmult_le_pos; apply len3_nonneg]|].
  apply Rsqr_incr_0_var; [|apply Rmult_le_pos; apply len3_nonneg]. unfold Rsqr.
  replace (len3 x y z * len3 X Y Z * (len3 x y z * len3 X Y Z)) with ((len3 x y z * len3 x y z) * (len3 X Y Z * len3 X Y Z)) by ring. rewrite !len3_sq.
  pose proof (Rle_0_sqr (x * Y - y * X)). pose proof (Rle_0_sqr (y * Z - z * Y)). pose proof (Rle_0_sqr (z * X - x * Z)). unfold Rsqr in *. nra.
Qed.
Lemma len3_triang : forall x y z X Y Z, len3 (x + X) (y + Y) (z + Z) <= len3 x y z + len3 X Y Z.
Proof.
  intros. pose proof (len3_nonneg x y z). pose proof (len3_nonneg X Y Z). apply Rsqr_incr_0_var; [|lra]. unfold Rsqr. rewrite len3_sq.
  pose proof (cauchy3 x y z X Y Z). pose proof (len3_sq x y z). pose proof (len3_sq X Y Z). nra.
Qed.
Lemma len3_diff : forall x y z X Y Z d, Rabs (x - X) <= d -> Rabs (y - Y) <= d -> Rabs (z - Z) <= d -> Rabs (len3 x y z - len3 X Y Z) <= 1733 / 1000 * d.
Proof.
  assert (S : forall a b c d, Rabs a <= d -> Rabs b <= d -> Rabs c <= d -> len3 a b c <= 1733 / 1000 * d).
  { intros a b c d A B C. assert (D : 0 <= d) by (eapply Rle_trans; [apply Rabs_pos | exact A]).
    assert (Q : forall v, Rabs v <= d -> v * v <= d * d) by (intros v V; apply Rsqr_le_abs_1; rewrite (Rabs_pos_eq d) by exact D; exact V).
    apply Rsqr_incr_0_var; [|lra]. unfold Rsqr. rewrite len3_sq. pose proof (Q a A). pose proof (Q b B). pose proof (Q c C). pose proof (Rmult_le_pos d d D D). lra. }
  intros x y z X Y Z d A B C.
  pose proof (len3_triang X Y Z (x - X) (y - Y) (z - Z)) as T1. pose proof (len3_triang x y z (X - x) (Y - y) (Z - z)) as T2.
  replace (X + (x - X)) with x in T1 by ring. replace (Y + (y - Y)) with y in T1 by ring. replace (Z + (z - Z)) with z in T1 by ring.
  replace (x + (X - x)) with X in T2 by ring. replace (y + (Y - y)) with Y in T2 by ring. replace (z + (Z - z)) with Z in T2 by ring.
  pose proof (S _ _ _ d A B C). rewrite Rabs_minus_sym in A. rewrite Rabs_minus_sym in B. rewrite Rabs_minus_sym in C. pose proof (S _ _ _ d A B C). apply Rabs_le. lra.
Qed.
Lemma len3_max : forall x y z, let m := Rmax (Rmax (Rabs x) (Rabs y)) (Rabs z) in m <= len3 x y z <= 2 * m.
Proof. intros x y z. exact (norm3_max (Mom x y z 0)). Qed.

(** |p x n|, componentwise *)
Definition cross_len (p : mom) (n : vec) : R := sqrt (cross_sq p n).
Lemma cross_le : forall q a i, cross_len q (unit_axis a i) <= norm3 q.
Proof.
  intros q a i. unfold cross_len, norm3. apply sqrt_le_1_alt. pose proof (unit_axis_norm a i) as U. set (n := unit_axis a i) in *. unfold cross_sq, p_sq, vnorm_sq in *.
  set (x := px q). set (y := py q). set (z := pz q). set (A := vx n) in *. set (B := vy n) in *. set (C := vz n) in *.
  assert (E : (x * x + y * y + z * z) * (A * A + B * B + C * C) = (x * A + y * B + z * C) * (x * A + y * B + z * C) + ((x * B - y * A) * (x * B - y * A) + (y * C - z * B) * (y * C - z * B) + (z * A - x * C) * (z * A - x * C))) by ring.
  rewrite U, Rmult_1_r in E. pose proof (Rle_0_sqr (x * A + y * B + z * C)) as Q. unfold Rsqr in Q. fold x y z. lra.
Qed.

Section Cross.
  Context (k : R) (K : 0 <= k <= 1000) (cp sp ct st : f64) (a i : R).
  Context (Hst : fin st) (Nst : near k 1 (val st) (sin i)) (Hct : fin ct) (Nct : near k 1 (val ct) (cos i))
          (Hsp : fin sp) (Nsp : near k 1 (val sp) (sin a)) (Hcp : fin cp) (Ncp : near k 1 (val cp) (cos a)).

  Definition f_cross (p : rec3) : option f64 :=
    f_three_norm (fsub (fmul (ry p) ct) (fmul (rz p) (fmul st sp))) (fsub (fmul (rz p) (fmul st cp)) (fmul (rx p) ct)) (fsub (fmul (rx p) (fmul st sp)) (fmul (ry p) (fmul st cp))).

  Lemma cross_comp : forall x y n N q Q m c d, 0 <= c <= 2 * k + 103 / 100 -> 0 <= d <= 2 * k + 103 / 100 -> fin n -> near c 1 (val n) N -> Rabs N <= 1 -> fin q -> near d 1 (val q) Q -> Rabs Q <= 1 ->
    scale m -> fin x -> Rabs (val x) <= m -> fin y -> Rabs (val y) <= m ->
    fin (fsub (fmul x n) (fmul y q)) /\ near (4 * k + 7) m (val (fsub (fmul x n) (fmul y q))) (val x * N - val y * Q).
  Proof.
    intros x y n N q Q m c d C D Fn Nn BN Fq Nq BQ S Fx Bx Fy By.
    destruct (comp_ok k K c n x N (val x) m C Fn Nn BN S Fx eq_refl Bx) as (G1 & C1 & D1).
    destruct (comp_ok k K d q y Q (val y) m D Fq Nq BQ S Fy eq_refl By) as (G2 & C2 & D2).
    rewrite fmul_comm in G1, C1. rewrite fmul_comm in G2, C2. rewrite (Rmult_comm N) in C1, D1. rewrite (Rmult_comm Q) in C2, D2.
    pose proof (near_sub _ _ _ _ _ _ _ C1 C2) as C12.
    assert (B12 : Rabs (val x * N - val y * Q) <= 2 * m) by (unfold Rminus; eapply Rle_trans; [apply Rabs_triang|]; rewrite Rabs_Ropp; lra).
    destruct (r_sub _ m 2 _ _ _ C12 G1 G2 S B12 ltac:(lra) ltac:(apply (ku k K); lra) ltac:(lra)) as (G & R). split; [exact G|].
    assert (M0 : 0 <= m) by (eapply Rle_trans; [apply Rabs_pos | exact Bx]).
    eapply near_weak; [| |split; [exact M0|apply Rle_refl]|exact R]; lra.
  Qed.

  (** far enough from the axis for the cross product not to be lost in rounding *)
  Lemma cross_ok : forall p, moderate p -> (20 * k + 40) * u * norm3 (mom_of p) <= cross_len (mom_of p) (unit_axis a i) ->
    exists r, f_cross p = Some r /\ fin r /\ near (7 * k + 19) (norm3 (mom_of p)) (val r) (cross_len (mom_of p) (unit_axis a i)) /\ 0 < val r.
  Proof.
    intros p Mp CL. pose proof (mod_scale p Mp) as S. destruct (mod_pos p Mp) as (N0 & _). destruct (comp_le (mom_of p)) as (B1 & B2 & B3). cbn [mom_of px py pz] in B1, B2, B3. fold (rx p) in B1. fold (ry p) in B2. fold (rz p) in B3.
    pose proof Mp as ((Fx & Fy & Fz) & L & U). destruct (axis_x k K st sp cp a i Hst Nst Hsp Nsp Hcp Ncp) as (F1 & A1 & F2 & A2). set (m := norm3 (mom_of p)) in *.
    assert (Bx : Rabs (sin i * cos a) <= 1) by (rewrite Rabs_mult; apply Rle_trans with (1 * 1); [|lra]; apply Rmult_le_compat; try apply Rabs_pos; [apply sin_abs | apply cos_abs]).
    assert (By : Rabs (sin i * sin a) <= 1) by (rewrite Rabs_mult; apply Rle_trans with (1 * 1); [|lra]; apply Rmult_le_compat; try apply Rabs_pos; apply sin_abs).
    destruct (cross_comp (ry p) (rz p) ct (cos i) (fmul st sp) (sin i * sin a) m k (2 * k + 103 / 100) ltac:(lra) ltac:(lra) Hct Nct (cos_abs i) F2 A2 By S Fy B2 Fz B3) as (G1 & C1).
    destruct (cross_comp (rz p) (rx p) (fmul st cp) (sin i * cos a) ct (cos i) m (2 * k + 103 / 100) k ltac:(lra) ltac:(lra) F1 A1 Bx Hct Nct (cos_abs i) S Fz B3 Fx B1) as (G2 & C2).
    destruct (cross_comp (rx p) (ry p) (fmul st sp) (sin i * sin a) (fmul st cp) (sin i * cos a) m (2 * k + 103 / 100) (2 * k + 103 / 100) ltac:(lra) ltac:(lra) F2 A2 By F1 A1 Bx S Fx B1 Fy B2) as (G3 & C3).
    unfold f_cross. set (cx := fsub (fmul (ry p) ct) (fmul (rz p) (fmul st sp))) in *. set (cy := fsub (fmul (rz p) (fmul st cp)) (fmul (rx p) ct)) in *. set (cz := fsub (fmul (rx p) (fmul st sp)) (fmul (ry p) (fmul st cp))) in *.
    pose proof (len3_diff _ _ _ _ _ _ _ C1 C2 C3) as LD.
    assert (EC : cross_len (mom_of p) (unit_axis a i) = len3 (val (ry p) * cos i - val (rz p) * (sin i * sin a)) (val (rz p) * (sin i * cos a) - val (rx p) * cos i) (val (rx p) * (sin i * sin a) - val (ry p) * (sin i * cos a))) by reflexivity.
    pose proof (cross_le (mom_of p) a i) as CU. fold m in CU. rewrite <- EC in LD. set (T := cross_len (mom_of p) (unit_axis a i)) in *. set (t := len3 (val cx) (val cy) (val cz)) in *.
    pose proof u_tiny as [U0 U1]. assert (UM : 0 < u * m) by (apply Rmult_lt_0_compat; lra).
    assert (KM : (7 * k + 13) * u * m <= / 1000 * m) by (apply Rmult_le_compat_r; [lra | apply (ku k K); lra]).
    assert (LD' : Rabs (t - T) <= (7 * k + 1214 / 100) * u * m).
    { eapply Rle_trans; [exact LD|]. replace (1733 / 1000 * ((4 * k + 7) * u * m)) with (1733 / 1000 * (4 * k + 7) * (u * m)) by ring. replace ((7 * k + 1214 / 100) * u * m) with ((7 * k + 1214 / 100) * (u * m)) by ring.
      apply Rmult_le_compat_r; lra. }
    apply Rabs_le_inv in LD'.
    assert (X1 : (7 * k + 1214 / 100) * u * m <= (7 * k + 13) * u * m) by (apply Rmult_le_compat_r; [lra | apply Rmult_le_compat_r; lra]).
    assert (KU : 0 <= k * (u * m)) by (apply Rmult_le_pos; lra).
    assert (TL : 20 * (u * m) <= t) by lra.
    assert (TU : t <= 1002 / 1000 * m) by lra.
    destruct (len3_max (val cx) (val cy) (val cz)) as (M1 & M2). fold t in M1, M2. set (mx := Rmax (Rmax (Rabs (val cx)) (Rabs (val cy))) (Rabs (val cz))) in *.
    destruct (C144_three_norm cx cy cz G1 G2 G3) as (r & R1 & R2 & R3).
    { fold mx. pose proof (pow2_pos 240) as P. split.
      - apply Rle_trans with (10 * (u * m)); [|lra]. apply Rle_trans with (u * m); [|lra]. apply Rle_trans with (/ 2 ^ 53 * / 2 ^ 240).
        + rewrite <- Rinv_mult, <- pow_add. apply pow_half. lia.
        + unfold u. apply Rmult_le_compat_l; [left; apply ipow2_pos | exact L].
      - apply Rle_trans with (2 * 2 ^ 240); [lra|]. change (2 * 2 ^ 240) with (2 ^ 241). apply Rle_pow; [lra | lia]. }
    exists r. split; [exact R1|]. split; [exact R2|]. unfold within in R3. change (sqrt (val cx * val cx + val cy * val cy + val cz * val cz)) with t in R3. rewrite (Rabs_pos_eq t) in R3 by lra.
    assert (TT : 6 * u * t <= (602 / 100) * u * m). { replace (602 / 100 * u * m) with (6 * u * (602 / 600 * m)) by field. apply Rmult_le_compat_l; lra. }
    apply Rabs_le_inv in R3. split.
    - unfold near. apply Rabs_le. lra.
    - assert (6 * u * t <= / 1000 * t) by (apply Rmult_le_compat_r; lra). lra.
  Qed.
End Cross.

(** * The sums *)
Definition csum (c0 : R) (d : f64) (o W : R) (j : nat) : Prop := fin d /\ near (c0 + 2 * INR j) W (val d) o /\ 0 <= o <= W /\ W <= INR j * 2 ^ 240 /\ 0 <= val d.
Lemma csum_step : forall c0 d o W j p t t', 0 <= c0 <= 10100 -> csum c0 d o W j -> moderate p -> fin t -> near c0 (nrm p) (val t) t' -> 0 <= t' <= nrm p -> 0 <= val t -> INR j <= 2 ^ 39 ->
  csum c0 (fadd d t) (o + t') (W + nrm p) (S j).
Proof.
  intros c0 d o W j p t t' C (F & H & NN & UW & V0) Mp Ft Nt Bt Vt J. pose proof (pow2_pos 240) as P. pose proof (pos_INR j). pose proof (ipow2_pos 240) as P'.
  pose proof (mod_scale p Mp) as (SL & _). destruct Mp as (_ & L & U).
  assert (UP : W + nrm p <= INR (S j) * 2 ^ 240) by (rewrite S_INR; lra).
  assert (SC : scale (W + nrm p)).
  { split; [lra|]. eapply Rle_trans; [exact UP|]. rewrite S_INR. assert (E1 : 1 <= 2 ^ 39) by (apply pow_R1_Rle; lra).
    apply Rle_trans with (2 ^ 40 * 2 ^ 240); [apply Rmult_le_compat_r; [lra | change (2 ^ 40) with (2 * 2 ^ 39); lra]|].
    rewrite <- pow_add. apply Rle_pow; [lra | lia]. }
  pose proof (near_acc _ _ _ _ _ _ _ _ H Nt ltac:(lra) ltac:(lra)) as NA.
  assert (AX : Rabs (o + t') <= 1 * (W + nrm p)) by (rewrite Rabs_pos_eq; lra).
  assert (CU : (c0 + 2 * INR j) * u <= / 1000).
  { pose proof (ksum2 1000 (INR j) ltac:(lra) ltac:(lra)) as Q. pose proof u_tiny as [U0 U1]. eapply Rle_trans; [|exact Q]. apply Rmult_le_compat_r; lra. }
  destruct (r_add _ _ _ _ _ _ NA F Ft SC AX ltac:(lra) CU ltac:(lra)) as (F' & N').
  split; [exact F'|]. split; [|split; [lra|split; [lra|apply add_nonneg; auto]]]. rewrite S_INR. eapply near_weak; [| |split; [|apply Rle_refl]|exact N']; lra.
Qed.

(** every particle is away from the axis by more than rounding *)
Definition off_axis (k a i : R) (p : mom) : Prop := (20 * k + 40) * u * norm3 p <= sqrt (cross_sq p (unit_axis a i)).

Section Sums.
  Context (k : R) (K : 0 <= k <= 1000) (cp sp ct st : f64) (a i : R).
  Context (Hst : fin st) (Nst : near k 1 (val st) (sin i)) (Hct : fin ct) (Nct : near k 1 (val ct) (cos i))
          (Hsp : fin sp) (Nsp : near k 1 (val sp) (sin a)) (Hcp : fin cp) (Ncp : near k 1 (val cp) (cos a)).

  Lemma sfold_ok : forall l s o N j, Forall moderate l -> Forall (fun p => off_axis k a i (mom_of p)) l -> csum (7 * k + 19) (fs_cross s) o N j -> nsum (fs_norm s) N j -> INR (j + length l) <= 2 ^ 39 ->
    exists s', ofold (f_spherocity_step cp sp ct st) l s = Some s' /\
      csum (7 * k + 19) (fs_cross s') (o + rsum (map (fun p => sqrt (cross_sq p (unit_axis a i))) (map mom_of l))) (N + total_norm (map mom_of l)) (j + length l) /\
      nsum (fs_norm s') (N + total_norm (map mom_of l)) (j + length l).
  Proof.
    induction l as [|p l IH]; intros s o N j Ml Cl A B J.
    - exists s. unfold total_norm. cbn [ofold map rsum length]. rewrite Nat.add_0_r, !Rplus_0_r. auto.
    - inversion Ml as [|? ? Mp Ml']; subst. inversion Cl as [|? ? Cp Cl']; subst. destruct (norm_ok p Mp) as (r & E & Fr & Nr).
      destruct (cross_ok k K cp sp ct st a i Hst Nst Hct Nct Hsp Nsp Hcp Ncp p Mp Cp) as (c & EC & Fc & Nc & C0).
      assert (J1 : INR j <= 2 ^ 39) by (eapply Rle_trans; [apply le_INR | exact J]; lia).
      assert (J2 : INR j <= 2 ^ 40) by (eapply Rle_trans; [exact J1 | apply Rle_pow; [lra | lia]]).
      assert (CB : 0 <= cross_len (mom_of p) (unit_axis a i) <= nrm p) by (split; [apply sqrt_pos | apply cross_le]).
      pose proof (csum_step (7 * k + 19) _ _ _ _ p _ _ ltac:(lra) A Mp Fc Nc CB ltac:(lra) J1) as A1.
      pose proof (nsum_step _ _ _ p r B Mp Fr Nr J2) as B1.
      cbn [length] in J. rewrite Nat.add_succ_r, <- Nat.add_succ_l in J.
      cbn [ofold]. unfold f_spherocity_step at 1. rewrite E. cbn [obind]. unfold f_cross in EC. rewrite EC. cbn [obind]. rewrite (fdiv_py_ok fone c Fc ltac:(lra)). cbn [obind].
      match goal with |- context [ofold _ l ?s1] => destruct (IH s1 _ _ _ Ml' Cl' A1 B1 J) as (s' & E2 & A2 & B2) end.
      exists s'. split; [exact E2|]. unfold total_norm, cross_len in *. cbn [map rsum length]. rewrite Nat.add_succ_r, <- Nat.add_succ_l, <- !Rplus_assoc. auto.
  Qed.
End Sums.

(** * The final quotient and square *)
Lemma scale_pow : forall m, / 2 ^ 960 <= m <= 2 ^ 960 -> scale m.
Proof.
  intros m (L & U). split; [|exact U]. eapply Rle_trans; [|exact L]. unfold min_normal. change 1022%nat with (62 + 960)%nat. rewrite pow_add, Rinv_mult.
  rewrite <- Rmult_assoc. rewrite <- (Rmult_1_l (/ 2 ^ 960)) at 2. apply Rmult_le_compat_r; [left; apply ipow2_pos|].
  apply Rmult_le_reg_r with (2 ^ 62); [apply pow2_pos|]. rewrite Rmult_assoc, Rinv_l by (apply Rgt_not_eq, pow2_pos). cbn; lra.
Qed.
Lemma PI_dec : 31415 / 10000 <= PI <= 31416 / 10000.
Proof.
  destruct fpi_ok as (F & H). destruct (lit_ok 7074237752028440 (-51) ltac:(lia) ltac:(lia)) as (V & _). fold fpi in V.
  assert (E : val fpi = 884279719003555 / 281474976710656) by (rewrite V; cbn; lra). rewrite E in H. pose proof u_tiny as [U0 U1]. apply Rabs_le_inv in H. lra.
Qed.
Lemma four : val (lit 4 0) = 4 /\ fin (lit 4 0).
Proof. destruct (lit_ok 4 0 ltac:(lia) ltac:(lia)) as (V & F). split; [rewrite V; cbn; lra | exact F]. Qed.

Lemma big_u : forall c, 0 <= c <= 20000000 -> c * u <= / 10000.
Proof. intros c C. pose proof u_tiny as [U0 U1]. apply Rle_trans with (20000000 * / 1000000000000000); [apply Rmult_le_compat; lra | lra]. Qed.
Lemma big_uu : forall c d, 0 <= c <= 9000000 -> 0 <= d <= 9000000 -> c * d * u <= / 100.
Proof.
  intros c d C D. pose proof u_tiny as [U0 U1]. assert (c * d <= 9000000 * 9000000) by (apply Rmult_le_compat; lra). assert (0 <= c * d) by (apply Rmult_le_pos; lra).
  assert (U2 : u <= / 9000000000000000). { unfold u. apply Rinv_le_contravar; [lra|]. cbn. lra. }
  apply Rle_trans with (9000000 * 9000000 * / 9000000000000000); [apply Rmult_le_compat; lra | lra].
Qed.

Lemma bounds_phi : forall N, / 2 ^ 240 <= N <= 2 ^ 260 -> let phi := 4 / (PI * N) in 0 < phi /\ / 2 ^ 260 <= phi <= 2 ^ 242 /\ / 2 ^ 520 <= phi * phi <= 2 ^ 484 /\ / 2 ^ 260 <= phi * phi * N <= 2 ^ 244 /\ phi * phi * N * N <= 16213 / 10000 /\ 1 <= phi * phi * N * N.
Proof.
  intros N (L & U) phi. pose proof PI_dec as PD. pose proof (ipow2_pos 240) as P1. pose proof (pow2_pos 260) as P2.
  assert (N0 : 0 < N) by lra. assert (PN : 0 < PI * N) by (apply Rmult_lt_0_compat; lra).
  assert (E1 : phi * N = 4 / PI) by (unfold phi; field; lra).
  assert (Q : 127 / 100 <= 4 / PI <= 12733 / 10000). { split; apply Rmult_le_reg_r with PI; try lra; unfold Rdiv; rewrite ?Rmult_assoc, Rinv_l; lra. }
  assert (F0 : 0 < phi) by (unfold phi; apply Rmult_lt_0_compat; [lra | apply Rinv_0_lt_compat; exact PN]).
  assert (FL : / 2 ^ 260 <= phi).
  { apply Rmult_le_reg_r with N; [exact N0|]. rewrite E1. apply Rle_trans with (/ 2 ^ 260 * 2 ^ 260); [apply Rmult_le_compat_l; [left; apply ipow2_pos | exact U]|]. rewrite Rinv_l; lra. }
  assert (FU : phi <= 2 ^ 242).
  { apply Rmult_le_reg_r with N; [exact N0|]. rewrite E1. apply Rle_trans with (2 ^ 242 * / 2 ^ 240); [|apply Rmult_le_compat_l; [left; apply pow2_pos | exact L]].
    change 242%nat with (2 + 240)%nat. rewrite pow_add, Rmult_assoc, Rinv_r by (apply Rgt_not_eq, pow2_pos). cbn. lra. }
  assert (E2 : phi * phi * N = phi * (4 / PI)) by (rewrite <- E1; ring). assert (E3 : phi * phi * N * N = (4 / PI) * (4 / PI)) by (rewrite <- E1; ring).
  split; [exact F0|]. split; [auto|]. split; [|split; [|split]].
  - change 520%nat with (260 + 260)%nat. change 484%nat with (242 + 242)%nat. rewrite !pow_add, Rinv_mult. pose proof (ipow2_pos 260). split; apply Rmult_le_compat; lra.
  - rewrite E2. split.
    + apply Rle_trans with (phi * 1); [lra | apply Rmult_le_compat_l; lra].
    + change 244%nat with (242 + 2)%nat. rewrite pow_add. replace (2 ^ 2) with 4 by (cbn; lra). apply Rmult_le_compat; lra.
  - rewrite E3. apply Rle_trans with (12733 / 10000 * (12733 / 10000)); [apply Rmult_le_compat; lra | lra].
  - rewrite E3. apply Rle_trans with (127 / 100 * (127 / 100)); [lra | apply Rmult_le_compat; lra].
Qed.

Lemma shape_ok : forall cN cC N C fN fC, 0 <= cN <= 2000000 -> 0 <= cC <= 2000000 -> fin fN -> fin fC -> near cN N (val fN) N -> near cC N (val fC) C -> 0 <= C <= N -> / 2 ^ 240 <= N <= 2 ^ 260 ->
  exists f, fdiv_py (lit 4 0) (fmul fpi fN) = Some f /\ let r := fmul (fmul (fmul f f) fC) fC in
    fin r /\ Rabs (val r - (4 / (PI * N)) * (4 / (PI * N)) * C * C) <= (13 + 325 / 100 * cN + 325 / 100 * cC) * u.
Proof.
  intros cN cC N C fN fC HN HC FN FC NN NC BC RN. pose proof PI_dec as PD. destruct fpi_ok as (FP & NP). destruct four as (V4 & F4).
  pose proof (ipow2_pos 240) as P1. assert (N0 : 0 < N) by lra. pose proof u_tiny as [U0 U1].
  destruct (bounds_phi N RN) as (F0 & S1 & S2 & S3 & S4 & S5). set (phi := 4 / (PI * N)) in *.
  assert (PW : forall a b, (a <= 960)%nat -> (b <= 960)%nat -> forall m, / 2 ^ a <= m <= 2 ^ b -> scale m).
  { intros a b A B m (L & U). apply scale_pow. split; [eapply Rle_trans; [apply pow_half; exact A | exact L] | eapply Rle_trans; [exact U | apply Rle_pow; [lra | exact B]]]. }
  (* pi * N *)
  assert (NP' : near (12 / 10) 1 (val fpi) PI) by (unfold near; lra).
  pose proof (near_mult (12 / 10) cN 1 N (val fpi) PI (val fN) N (31416 / 10000) 1 ltac:(lra) ltac:(lra) (big_uu (12 / 10) cN ltac:(lra) ltac:(lra)) ltac:(lra) ltac:(lra) ltac:(lra) ltac:(lra)
                ltac:(rewrite Rabs_pos_eq; lra) ltac:(rewrite Rabs_pos_eq; lra) NP' NN) as Y0. rewrite Rmult_1_l in Y0.
  assert (PB : Rabs (PI * N) <= 31416 / 10000 * N) by (rewrite Rabs_pos_eq; [apply Rmult_le_compat_r; lra | apply Rmult_le_pos; lra]).
  assert (K1 : (12 / 10 * 1 + cN * (31416 / 10000) + / 100) * u <= / 1000) by (eapply Rle_trans; [apply big_u; lra | lra]).
  destruct (r_mul _ N (31416 / 10000) _ _ _ Y0 FP FN (PW 240%nat 260%nat ltac:(lia) ltac:(lia) N RN) PB ltac:(lra) K1 ltac:(lra)) as (FY & NY).
  set (y := fmul fpi fN) in *. set (m := PI * N) in *.
  assert (M0 : 0 < m) by (unfold m; apply Rmult_lt_0_compat; lra).
  assert (NY' : near (14 / 10 + 1001 / 1000 * cN) m (val y) m).
  { unfold near in *. eapply Rle_trans; [exact NY|]. unfold m. replace ((14 / 10 + 1001 / 1000 * cN) * u * (PI * N)) with ((14 / 10 + 1001 / 1000 * cN) * PI * (u * N)) by ring.
    replace ((12 / 10 * 1 + cN * (31416 / 10000) + / 100 + 31416 / 10000 + / 100) * u * N) with ((12 / 10 * 1 + cN * (31416 / 10000) + / 100 + 31416 / 10000 + / 100) * (u * N)) by ring.
    apply Rmult_le_compat_r; [apply Rmult_le_pos; lra|]. apply Rle_trans with ((14 / 10 + 1001 / 1000 * cN) * (31415 / 10000)); [lra | apply Rmult_le_compat_l; lra]. }
  assert (Y1 : 0 < val y).
  { unfold near in NY'. apply Rabs_le_inv in NY'. assert ((14 / 10 + 1001 / 1000 * cN) * u * m <= / 10000 * m) by (apply Rmult_le_compat_r; [lra | apply big_u; lra]). lra. }
  exists (fdiv (lit 4 0) y). split; [apply fdiv_py_ok; [exact FY | lra]|]. cbv zeta.
  (* 4 / (pi * N) *)
  assert (E4 : m * phi = 4) by (unfold phi, m in *; field; lra).
  pose proof (near_div 0 (14 / 10 + 1001 / 1000 * cN) m phi (val (lit 4 0)) 4 (val y) 1 ltac:(lra) ltac:(lra) ltac:(apply big_u; lra) M0 ltac:(lra) ltac:(lra) ltac:(rewrite Rabs_pos_eq; lra)
                ltac:(rewrite V4, E4; apply near_exact; lra) NY') as Z0.
  change (4 / m) with phi in Z0.
  assert (K2 : (0 + 1 * (14 / 10 + 1001 / 1000 * cN)) * (1001 / 1000) * u <= / 1000) by (eapply Rle_trans; [apply big_u; lra | lra]).
  destruct (r_div _ phi 1 _ _ _ Z0 F4 FY (PW 260%nat 242%nat ltac:(lia) ltac:(lia) phi S1) ltac:(rewrite Rabs_pos_eq; lra) ltac:(lra) ltac:(lra) K2 ltac:(lra)) as (Ff & Nf).
  set (f := fdiv (lit 4 0) y) in *.
  apply near_weak with (d := 243 / 100 + 10021 / 10000 * cN) (n := phi) in Nf; [|lra|lra|lra].
  set (d2 := 243 / 100 + 10021 / 10000 * cN) in *. assert (D2 : 0 <= d2 <= 2100000) by (unfold d2; lra).
  (* squared *)
  pose proof (near_mult d2 d2 phi phi (val f) phi (val f) phi 1 1 ltac:(lra) ltac:(lra) (big_uu d2 d2 ltac:(lra) ltac:(lra)) ltac:(lra) ltac:(lra) ltac:(lra) ltac:(lra) ltac:(rewrite Rabs_pos_eq; lra) ltac:(rewrite Rabs_pos_eq; lra) Nf Nf) as W0.
  assert (PP : 0 < phi * phi) by (apply Rmult_lt_0_compat; exact F0).
  assert (K3 : (d2 * 1 + d2 * 1 + / 100) * u <= / 1000) by (eapply Rle_trans; [apply big_u; lra | lra]).
  destruct (r_mul _ (phi * phi) 1 _ _ _ W0 Ff Ff (PW 520%nat 484%nat ltac:(lia) ltac:(lia) _ S2) ltac:(rewrite Rabs_pos_eq; lra) ltac:(lra) K3 ltac:(lra)) as (Fs & Ns).
  set (sq := fmul f f) in *. apply near_weak with (d := 2 * d2 + 102 / 100) (n := phi * phi) in Ns; [|lra|lra|lra]. set (d3 := 2 * d2 + 102 / 100) in *. assert (D3 : 0 <= d3 <= 4300000) by (unfold d3; lra).
  (* times C, twice *)
  pose proof (near_mult d3 cC (phi * phi) N (val sq) (phi * phi) (val fC) C 1 1 ltac:(lra) ltac:(lra) (big_uu d3 cC ltac:(lra) ltac:(lra)) ltac:(lra) ltac:(lra) ltac:(lra) ltac:(lra) ltac:(rewrite Rabs_pos_eq; lra) ltac:(rewrite Rabs_pos_eq; lra) Ns NC) as T0.
  assert (PN : 0 < phi * phi * N) by (apply Rmult_lt_0_compat; assumption).
  assert (B4 : Rabs (phi * phi * C) <= 1 * (phi * phi * N)) by (rewrite Rabs_pos_eq; [rewrite Rmult_1_l; apply Rmult_le_compat_l; lra | apply Rmult_le_pos; lra]).
  assert (K4 : (d3 * 1 + cC * 1 + / 100) * u <= / 1000) by (eapply Rle_trans; [apply big_u; lra | lra]).
  destruct (r_mul _ (phi * phi * N) 1 _ _ _ T0 Fs FC (PW 260%nat 244%nat ltac:(lia) ltac:(lia) _ S3) B4 ltac:(lra) K4 ltac:(lra)) as (Fp & Np).
  set (part := fmul sq fC) in *. apply near_weak with (d := d3 + cC + 102 / 100) (n := phi * phi * N) in Np; [|lra|lra|lra]. set (d4 := d3 + cC + 102 / 100) in *. assert (D4 : 0 <= d4 <= 6400000) by (unfold d4; lra).
  pose proof (near_mult d4 cC (phi * phi * N) N (val part) (phi * phi * C) (val fC) C 1 1 ltac:(lra) ltac:(lra) (big_uu d4 cC ltac:(lra) ltac:(lra)) ltac:(lra) ltac:(lra) ltac:(lra) ltac:(lra) B4 ltac:(rewrite Rabs_pos_eq; lra) Np NC) as V0.
  assert (B5 : Rabs (phi * phi * C * C) <= 1 * (phi * phi * N * N)).
  { rewrite Rabs_mult, Rmult_1_l. apply Rmult_le_compat; try apply Rabs_pos; [lra | rewrite Rabs_pos_eq; lra]. }
  assert (K5 : (d4 * 1 + cC * 1 + / 100) * u <= / 1000) by (eapply Rle_trans; [apply big_u; lra | lra]).
  assert (SC : scale (phi * phi * N * N)) by (apply (PW 0%nat 1%nat); [lia | lia | cbn [pow]; lra]).
  destruct (r_mul _ (phi * phi * N * N) 1 _ _ _ V0 Fp FC SC B5 ltac:(lra) K5 ltac:(lra)) as (Fr & Nr).
  split; [exact Fr|]. unfold near in Nr. eapply Rle_trans; [exact Nr|].
  apply Rle_trans with ((d4 * 1 + cC * 1 + / 100 + 1 + / 100) * u * (16213 / 10000)); [apply Rmult_le_compat_l; [apply Rmult_le_pos; lra | exact S4]|].
  replace ((d4 * 1 + cC * 1 + / 100 + 1 + / 100) * u * (16213 / 10000)) with ((d4 * 1 + cC * 1 + / 100 + 1 + / 100) * (16213 / 10000) * u) by ring.
  apply Rmult_le_compat_r; [lra|]. unfold d4, d3, d2. lra.
Qed.

(** * C181 *)

(** With sin and cos accurate to k units of 2^-53, n particles of moderate momentum, none of them within rounding of the axis: the
    spherocity computed is within (23 k + 13 n + 100) u of the textbook spherocity along the axis of those angles. *)
Theorem C181_accuracy : forall fsin fcos k az inc l, 0 <= k <= 1000 ->
  trig_ok k fsin sin inc -> trig_ok k fcos cos inc -> trig_ok k fsin sin az -> trig_ok k fcos cos az ->
  l <> [] -> (Z.of_nat (length l) <= 524288)%Z -> Forall moderate l ->
  (forall p, In p (map mom_of l) -> (20 * k + 40) * u * norm3 p <= sqrt (cross_sq p (unit_axis (val az) (val inc)))) ->
  exists s g, f_spherocity_with_grad fsin fcos az inc l = Some (s, g) /\ fin s /\
    Rabs (val s - spherocity_along (map mom_of l) (unit_axis (val az) (val inc))) <= (23 * k + 13 * INR (length l) + 100) * u.
Proof.
  intros fsin fcos k az inc l K (F1 & T1) (F2 & T2) (F3 & T3) (F4 & T4) NE LN Ml CL.
  assert (ZM : forall q, In q (map mom_of l) -> p_sq q <> 0).
  { intros q Hq. apply in_map_iff in Hq as (p & <- & Hp). rewrite Forall_forall in Ml. destruct (mod_pos p (Ml p Hp)). auto. }
  set (n := length l) in *. assert (n1 : (1 <= n)%nat) by (unfold n; destruct l; [contradiction | cbn; lia]).
  assert (RN : 1 <= INR n <= 524288). { split; [apply (le_INR 1); exact n1|]. rewrite INR_IZR_INZ. apply IZR_le. exact LN. }
  assert (N1 : forall f g x, Rabs (val (f x) - g (val x)) <= k * u -> near k 1 (val (f x)) (g (val x))) by (intros; unfold near; lra).
  assert (P39 : 524288 <= 2 ^ 39). { replace 524288 with (2 ^ 19) by (cbn; lra). apply Rle_pow; [lra | lia]. }
  assert (A0 : csum (7 * k + 19) fzero 0 0 0). { split; [reflexivity|]. cbn [INR]. unfold near. change (val fzero) with 0. rewrite Rminus_0_r, Rabs_R0. repeat split; lra. }
  assert (B0 : nsum fzero 0 0). { split; [reflexivity|]. cbn [INR]. unfold near. change (val fzero) with 0. rewrite Rminus_0_r, Rabs_R0. lra. }
  assert (CF : Forall (fun p => off_axis k (val az) (val inc) (mom_of p)) l).
  { apply Forall_forall. intros p Hp. apply CL. apply in_map. exact Hp. }
  destruct (sfold_ok k K (fcos az) (fsin az) (fcos inc) (fsin inc) (val az) (val inc) F1 (N1 _ _ _ T1) F2 (N1 _ _ _ T2) F3 (N1 _ _ _ T3) F4 (N1 _ _ _ T4) l
              (FSAcc fzero fzero fzero fzero) 0 0 0%nat Ml CF A0 B0) as (s & E & A & B); [cbn [Nat.add]; fold n; lra|].
  cbn [Nat.add] in A, B. fold n in A, B. rewrite !Rplus_0_l in A. rewrite !Rplus_0_l in B.
  set (L := map mom_of l) in *. assert (LE : L <> []) by (unfold L; destruct l; [contradiction | discriminate]).
  pose proof (total_norm_pos L LE ZM) as TP.
  assert (NL : / 2 ^ 240 <= total_norm L).
  { unfold L, total_norm. destruct l as [|p l']; [contradiction|]. inversion Ml as [|? ? (_ & Lp & _) Ml']; subst. cbn [map rsum]. assert (0 <= rsum (map norm3 (map mom_of l'))); [|lra].
    apply rsum_map_nonneg. intros x _. apply sqrt_pos. }
  destruct A as (Fo & No & O & UW & V0). destruct B as (Fs & Ns & NB).
  assert (NU : total_norm L <= 2 ^ 260).
  { eapply Rle_trans; [exact UW|]. apply Rle_trans with (2 ^ 20 * 2 ^ 240); [|rewrite <- pow_add; apply Rle_pow; [lra | lia]].
    apply Rmult_le_compat_r; [left; apply pow2_pos|]. cbn [pow]. lra. }
  set (N := total_norm L) in *. set (o := rsum (map (fun p => sqrt (cross_sq p (unit_axis (val az) (val inc)))) L)) in *.
  destruct (shape_ok (7 + 2 * INR n) (7 * k + 19 + 2 * INR n) N o (fs_norm s) (fs_cross s) ltac:(lra) ltac:(lra) Fs Fo Ns No O (Logic.conj NL NU)) as (f & EF & R).
  unfold f_spherocity_with_grad. rewrite E. cbn [obind]. rewrite EF. cbn [obind]. cbv zeta in R. destruct R as (FR & RR).
  do 2 eexists. split; [reflexivity|]. split; [exact FR|].
  assert (ES : spherocity_along L (unit_axis (val az) (val inc)) = 4 / (PI * N) * (4 / (PI * N)) * o * o).
  { unfold spherocity_along. fold o N. pose proof PI_RGT_0. cbv zeta. field. lra. }
  rewrite ES. eapply Rle_trans; [exact RR|]. apply Rmult_le_compat_r; [left; apply u_tiny | lra].
Qed.

Theorem C185_defined_partial : forall fsin fcos k az inc l, 0 <= k <= 1000 ->
  trig_ok k fsin sin inc -> trig_ok k fcos cos inc -> trig_ok k fsin sin az -> trig_ok k fcos cos az ->
  l <> [] -> (Z.of_nat (length l) <= 524288)%Z -> Forall moderate l ->
  (forall p, In p (map mom_of l) -> (20 * k + 40) * u * norm3 p <= sqrt (cross_sq p (unit_axis (val az) (val inc)))) ->
  exists s g, f_spherocity_with_grad fsin fcos az inc l = Some (s, g) /\ fin s.
Proof. intros fsin fcos k az inc l K T1 T2 T3 T4 N L M C. destruct (C181_accuracy fsin fcos k az inc l K T1 T2 T3 T4 N L M C) as (s & g & E & F & _). eauto. Qed.

(** The objective has no value at all on an axis along one of the particles: the division 1 / |p x n| raises ZeroDivisionError. *)
Theorem C185_on_axis_refuted : forall l z, fin z -> In (fzero, fzero, z) l ->
  trig_ok 0 exact_sin sin fzero /\ trig_ok 0 exact_cos cos fzero /\ f_spherocity_with_grad exact_sin exact_cos fzero fzero l = None.
Proof.
  intros l z Fz H. destruct trig_0 as (T1 & T2). split; [exact T1|]. split; [exact T2|].
  unfold f_spherocity_with_grad. rewrite (ofold_none _ l (fzero, fzero, z) H); [reflexivity|].
  intros s. unfold f_spherocity_step. destruct (f_norm3 (fzero, fzero, z)); [|reflexivity]. cbn [obind rx ry rz fst snd].
  destruct z as [b|b| |b m e Hb]; try discriminate Fz; destruct b; reflexivity.
Qed.

(** The hypotheses are met: the particle (49, 0, 0) and the z axis; its spherocity there is 16 / pi^2. *)
Example C181_case : exists s g, f_spherocity_with_grad exact_sin exact_cos fzero fzero [(lit 49 0, fzero, fzero)] = Some (s, g) /\
  Rabs (val s - 16 / (PI * PI)) <= 113 * u.
Proof.
  destruct (lit_ok 49 0 ltac:(lia) ltac:(lia)) as (V & F). assert (V49 : val (lit 49 0) = 49) by (rewrite V; cbn; lra). set (p := (lit 49 0, fzero, fzero)).
  assert (N : norm3 (mom_of p) = 49).
  { unfold norm3, p_sq, mom_of, p. cbn [fst snd px py pz]. rewrite V49. change (val fzero) with 0. replace (49 * 49 + 0 * 0 + 0 * 0) with (49 * 49) by ring. apply sqrt_square. lra. }
  assert (M : moderate p).
  { split; [split; [exact F | split; reflexivity]|]. rewrite N. split.
    - apply Rle_trans with (/ 2 ^ 0); [apply pow_half; lia | cbn; lra].
    - apply Rle_trans with (2 ^ 6); [cbn; lra | apply Rle_pow; [lra | lia]]. }
  assert (C : sqrt (cross_sq (mom_of p) (unit_axis (val fzero) (val fzero))) = 49).
  { unfold cross_sq, unit_axis, mom_of, p. cbn [fst snd px py pz vx vy vz]. rewrite V49. change (val fzero) with 0. rewrite sin_0, cos_0.
    match goal with |- sqrt ?e = _ => replace e with (49 * 49) by ring end. apply sqrt_square. lra. }
  destruct trig_0 as (T1 & T2). pose proof u_tiny as [U0 U1].
  destruct (C181_accuracy exact_sin exact_cos 0 fzero fzero [p] ltac:(lra) T1 T2 T1 T2 ltac:(discriminate) ltac:(cbn; lia) (Forall_cons _ M (Forall_nil _))) as (s & g & E & _ & A).
  - intros q [<-|[]]. rewrite N, C. lra.
  - exists s, g. split; [exact E|]. unfold spherocity_along, total_norm in A. cbn [map rsum] in A. rewrite C, N in A. cbn [length INR] in A.
    replace (4 / PI * ((49 + 0) / (49 + 0)) * (4 / PI * ((49 + 0) / (49 + 0)))) with (16 / (PI * PI)) in A by (field; apply PI_neq0). lra.
Qed.

Print Assumptions C181_accuracy.
Print Assumptions C185_on_axis_refuted.

Print Assumptions C185_defined_partial.
