(** The objectives of thrust and spherocity in IEEE doubles (C176, C177). *)
From Coq Require Import ZArith Reals List Bool Lia Lra.
From Flocq Require Import Core BinarySingleNaN.
From Verif Require Import Prelude SpecReal SpecShapes RealBase Shapes ShapesProofs SpecIEEE Floats FloatBase FloatOps Floats2 P_Float P_Float4 P_Float6 Floats5.
Import ListNotations.
Open Scope R_scope.

(** A library routine accurate to [k] units of 2^-53 (absolute: its values are at most 1) at the angle [a]. *)
Definition trig_ok (k : R) (f : f64 -> f64) (g : R -> R) (a : f64) : Prop := fin (f a) /\ Rabs (val (f a) - g (val a)) <= k * u.

Lemma scale_1 : scale 1.
Proof.
  split; [|apply pow_R1_Rle; lra]. unfold min_normal. change 1022%nat with (62 + 960)%nat. rewrite pow_add, Rinv_mult.
  assert (A : 1000000000 * / 2 ^ 62 <= 1). { apply Rmult_le_reg_r with (2 ^ 62); [apply pow2_pos|]. rewrite Rmult_assoc, Rinv_l by (apply Rgt_not_eq, pow2_pos). cbn; lra. }
  assert (B : / 2 ^ 960 <= 1). { apply Rle_trans with (/ 2 ^ 0); [apply pow_half; lia | cbn; lra]. }
  pose proof (ipow2_pos 960). pose proof (ipow2_pos 62). rewrite <- Rmult_assoc. apply Rle_trans with (1 * 1); [|lra]. apply Rmult_le_compat; try lra.
Qed.
Lemma mod_scale : forall p, moderate p -> scale (norm3 (mom_of p)).
Proof.
  intros p (_ & L & U). split.
  - eapply Rle_trans; [|exact L]. unfold min_normal. apply Rle_trans with (/ 2 ^ 960); [|apply pow_half; lia]. change 1022%nat with (62 + 960)%nat. rewrite pow_add, Rinv_mult.
    rewrite <- Rmult_assoc. rewrite <- (Rmult_1_l (/ 2 ^ 960)) at 2. apply Rmult_le_compat_r; [left; apply ipow2_pos|].
    apply Rmult_le_reg_r with (2 ^ 62); [apply pow2_pos|]. rewrite Rmult_assoc, Rinv_l by (apply Rgt_not_eq, pow2_pos). cbn; lra.
  - eapply Rle_trans; [exact U | apply Rle_pow; [lra | lia]].
Qed.
Lemma sin_abs : forall x, Rabs (sin x) <= 1. Proof. intros x. apply Rabs_le. apply SIN_bound. Qed.
Lemma cos_abs : forall x, Rabs (cos x) <= 1. Proof. intros x. apply Rabs_le. apply COS_bound. Qed.

Section Axis.
  Context (k : R) (K : 0 <= k <= 1000) (st ct sp cp : f64) (a i : R).
  Context (Hst : fin st) (Nst : near k 1 (val st) (sin i)) (Hct : fin ct) (Nct : near k 1 (val ct) (cos i))
          (Hsp : fin sp) (Nsp : near k 1 (val sp) (sin a)) (Hcp : fin cp) (Ncp : near k 1 (val cp) (cos a)).

  Lemma ku : forall c, 0 <= c <= 100 * k + 100 -> c * u <= / 1000.
  Proof. intros c C. pose proof u_tiny as [U0 U1]. apply Rle_trans with (100100 * / 1000000000000000); [apply Rmult_le_compat; lra | lra]. Qed.
  Lemma kk : forall c d, 0 <= c <= 3 * k + 3 -> 0 <= d <= 3 * k + 3 -> c * d * u <= / 100.
  Proof.
    intros c d C D. pose proof u_tiny as [U0 U1]. assert (c * d <= 3003 * 3003) by (apply Rmult_le_compat; lra). assert (0 <= c * d) by (apply Rmult_le_pos; lra).
    apply Rle_trans with (3003 * 3003 * / 1000000000000000); [apply Rmult_le_compat; lra | lra].
  Qed.

  Lemma axis_x : fin (fmul st cp) /\ near (2 * k + 103 / 100) 1 (val (fmul st cp)) (sin i * cos a) /\
                 fin (fmul st sp) /\ near (2 * k + 103 / 100) 1 (val (fmul st sp)) (sin i * sin a).
  Proof.
    assert (S : forall y Y, fin y -> near k 1 (val y) Y -> Rabs Y <= 1 -> fin (fmul st y) /\ near (2 * k + 103 / 100) 1 (val (fmul st y)) (sin i * Y)).
    { intros y Y Fy Ny By.
      assert (By' : Rabs Y <= 1 * 1) by lra. assert (Bs' : Rabs (sin i) <= 1 * 1) by (rewrite Rmult_1_l; apply sin_abs).
      pose proof (near_mult k k 1 1 _ _ _ _ 1 1 ltac:(lra) ltac:(lra) (kk k k ltac:(lra) ltac:(lra)) ltac:(lra) ltac:(lra) ltac:(lra) ltac:(lra) Bs' By' Nst Ny) as M.
      rewrite (Rmult_1_r 1), (Rmult_1_r k) in M.
      assert (B : Rabs (sin i * Y) <= 1 * 1). { rewrite Rabs_mult. apply Rmult_le_compat; try apply Rabs_pos; [apply sin_abs | exact By]. }
      assert (c0 : 0 <= k + k + / 100) by lra.
      destruct (r_mul _ 1 1 _ _ _ M Hst Fy scale_1 B c0 (ku (k + k + / 100) ltac:(lra)) ltac:(lra)) as (F & N). split; [exact F|].
      eapply near_weak; [| |split; [|apply Rle_refl]|exact N]; lra. }
    destruct (S cp (cos a) Hcp Ncp (cos_abs a)). destruct (S sp (sin a) Hsp Nsp (sin_abs a)). auto.
  Qed.

  Lemma unit_1 : vnorm_sq (unit_axis a i) = 1.
  Proof. apply unit_axis_norm. Qed.
  Lemma along_le : forall q, Rabs (along q (unit_axis a i)) <= norm3 q.
  Proof.
    intros q. set (n := unit_axis a i). pose proof unit_1 as U. fold n in U. unfold norm3, p_sq. unfold vnorm_sq in U.
    apply Rsqr_incr_0_var; [|apply sqrt_pos]. rewrite Rsqr_sqrt by nra. rewrite <- Rsqr_abs. unfold Rsqr, along.
    set (x := px q). set (y := py q). set (z := pz q). set (A := vx n) in *. set (B := vy n) in *. set (C := vz n) in *.
    assert (E : (x * x + y * y + z * z) * (A * A + B * B + C * C) = (x * A + y * B + z * C) * (x * A + y * B + z * C) + ((x * B - y * A) * (x * B - y * A) + (y * C - z * B) * (y * C - z * B) + (z * A - x * C) * (z * A - x * C))) by ring.
    rewrite U, Rmult_1_r in E. assert (0 <= (x * B - y * A) * (x * B - y * A) + (y * C - z * B) * (y * C - z * B) + (z * A - x * C) * (z * A - x * C)) by (pose proof (Rle_0_sqr (x * B - y * A)); pose proof (Rle_0_sqr (y * C - z * B)); pose proof (Rle_0_sqr (z * A - x * C)); unfold Rsqr in *; lra).
    fold x y z; lra.
  Qed.

  (** one component of the momentum times one of the axis *)
  Lemma comp_ok : forall c n x N X m, 0 <= c <= 2 * k + 103 / 100 -> fin n -> near c 1 (val n) N -> Rabs N <= 1 -> scale m -> fin x -> X = val x -> Rabs X <= m ->
    fin (fmul n x) /\ near (c + 103 / 100) m (val (fmul n x)) (N * X) /\ Rabs (N * X) <= m.
  Proof.
    intros c n x N X m C Fn Nn BN Sm Fx -> BX. assert (M0 : 0 <= m) by (eapply Rle_trans; [apply Rabs_pos | exact BX]).
    assert (BX' : Rabs (val x) <= 1 * m) by lra.
    assert (BN' : Rabs N <= 1 * 1) by lra.
    pose proof (near_mult c 0 1 m _ _ _ _ 1 1 ltac:(lra) ltac:(lra) (kk c 0 ltac:(lra) ltac:(lra)) ltac:(lra) M0 ltac:(lra) ltac:(lra) BN' BX' Nn (near_exact m (val x) M0)) as P.
    rewrite Rmult_1_l in P.
    assert (B : Rabs (N * val x) <= 1 * m). { rewrite Rabs_mult. apply Rmult_le_compat; try apply Rabs_pos; assumption. }
    destruct (r_mul _ m 1 _ _ _ P Fn Fx Sm B ltac:(lra) ltac:(apply ku; lra) ltac:(lra)) as (F & R). split; [exact F|]. split; [|lra].
    eapply near_weak; [| |split; [exact M0|apply Rle_refl]|exact R]; lra.
  Qed.

  Definition f_along (p : rec3) : f64 := fadd (fadd (fmul (fmul st cp) (rx p)) (fmul (fmul st sp) (ry p))) (fmul ct (rz p)).
  Lemma along_ok : forall p, moderate p -> fin (f_along p) /\ near (5 * k + 9) (norm3 (mom_of p)) (val (f_along p)) (along (mom_of p) (unit_axis a i)).
  Proof.
    intros p Mp. pose proof (mod_scale p Mp) as S. destruct (mod_pos p Mp) as (N0 & _). destruct (comp_le (mom_of p)) as (B1 & B2 & B3). cbn [mom_of px py pz] in B1, B2, B3.
    destruct Mp as ((Fx & Fy & Fz) & _). destruct axis_x as (F1 & A1 & F2 & A2). set (m := norm3 (mom_of p)) in *.
    assert (Bx : Rabs (sin i * cos a) <= 1) by (rewrite Rabs_mult; apply Rle_trans with (1 * 1); [|lra]; apply Rmult_le_compat; try apply Rabs_pos; [apply sin_abs | apply cos_abs]).
    assert (By : Rabs (sin i * sin a) <= 1) by (rewrite Rabs_mult; apply Rle_trans with (1 * 1); [|lra]; apply Rmult_le_compat; try apply Rabs_pos; apply sin_abs).
    destruct (comp_ok (2 * k + 103 / 100) _ (rx p) _ _ m ltac:(lra) F1 A1 Bx S Fx eq_refl B1) as (G1 & C1 & D1).
    destruct (comp_ok (2 * k + 103 / 100) _ (ry p) _ _ m ltac:(lra) F2 A2 By S Fy eq_refl B2) as (G2 & C2 & D2).
    destruct (comp_ok k ct (rz p) (cos i) _ m ltac:(lra) Hct Nct (cos_abs i) S Fz eq_refl B3) as (G3 & C3 & D3).
    pose proof (near_add _ _ _ _ _ _ _ C1 C2) as C12.
    assert (B12 : Rabs (sin i * cos a * val (rx p) + sin i * sin a * val (ry p)) <= 2 * m) by (eapply Rle_trans; [apply Rabs_triang|]; lra).
    destruct (r_add _ m 2 _ _ _ C12 G1 G2 S B12 ltac:(lra) ltac:(apply ku; lra) ltac:(lra)) as (G12 & C12').
    pose proof (near_add _ _ _ _ _ _ _ C12' C3) as C123.
    assert (E : along (mom_of p) (unit_axis a i) = sin i * cos a * val (rx p) + sin i * sin a * val (ry p) + cos i * val (rz p)) by (unfold along, unit_axis, mom_of, rx, ry, rz; cbn [px py pz vx vy vz]; ring).
    pose proof (along_le (mom_of p)) as AL. rewrite E in *. fold m in AL.
    destruct (r_add _ m 1 _ _ _ C123 G12 G3 S ltac:(lra) ltac:(lra) ltac:(apply ku; lra) ltac:(lra)) as (G & C). split; [exact G|].
    eapply near_weak; [| |split; [|apply Rle_refl]|exact C]; lra.
  Qed.
End Axis.

(** * The sums *)

Lemma add_nonneg : forall x y, fin x -> fin y -> fin (fadd x y) -> 0 <= val x -> 0 <= val y -> 0 <= val (fadd x y).
Proof.
  intros x y Fx Fy F X Y. destruct (Rlt_le_dec (Rabs (nearest (val x + val y))) (bpow radix2 1024)) as [H|H].
  - destruct (fadd_ok x y Fx Fy H) as (V & _). rewrite V, <- nearest_0. apply nearest_le. lra.
  - pose proof (Bplus_correct 53 1024 prec_pos prec_emax mode_NE x y Fx Fy) as C.
    change (round radix2 (SpecFloat.fexp 53 1024) (round_mode mode_NE) (B2R x + B2R y)) with (nearest (val x + val y)) in C.
    rewrite Rlt_bool_false in C by exact H. destruct C as (A & _). exfalso. unfold fadd in F. unfold fin in F. rewrite <- is_finite_SF_B2SF, A in F. destruct (Bsign x); discriminate F.
Qed.
Lemma div_nonneg : forall x y, fin x -> fin y -> fin (fdiv x y) -> 0 <= val x -> 0 < val y -> 0 <= val (fdiv x y).
Proof.
  intros x y Fx Fy F X Y. assert (Q : 0 <= val x / val y) by (apply Rmult_le_pos; [exact X | left; apply Rinv_0_lt_compat; exact Y]).
  destruct (Rlt_le_dec (Rabs (nearest (val x / val y))) (bpow radix2 1024)) as [H|H].
  - destruct (fdiv_ok x y Fx Fy ltac:(lra) H) as (V & _). rewrite V, <- nearest_0. apply nearest_le. exact Q.
  - pose proof (Bdiv_correct 53 1024 prec_pos prec_emax mode_NE x y ltac:(unfold val in Y; lra)) as C.
    change (round radix2 (SpecFloat.fexp 53 1024) (round_mode mode_NE) (B2R x / B2R y)) with (nearest (val x / val y)) in C.
    rewrite Rlt_bool_false in C by exact H. exfalso. unfold fdiv in F. unfold fin in F. rewrite <- is_finite_SF_B2SF, C in F. destruct (xorb (Bsign x) (Bsign y)); discriminate F.
Qed.

Lemma near_abs : forall c m x X, near c m x X -> near c m (Rabs x) (Rabs X).
Proof. intros c m x X H. unfold near in *. eapply Rle_trans; [apply Rabs_triang_inv2 | exact H]. Qed.

Definition dsum (k : R) (d : f64) (o W : R) (j : nat) : Prop := fin d /\ near (5 * k + 9 + 2 * INR j) W (val d) o /\ 0 <= o <= W /\ W <= INR j * 2 ^ 240 /\ 0 <= val d.

Lemma ksum : forall k x, 0 <= k <= 1000 -> 0 <= x <= 2 ^ 40 -> (10 * k + 100 + 5 * x) * u <= / 500.
Proof.
  intros k x K X. pose proof (cap_u x X). pose proof u_tiny as [U0 U1]. assert (10 * k * u <= 10000 * u) by (apply Rmult_le_compat_r; lra). lra.
Qed.
Lemma ksum2 : forall k x, 0 <= k <= 1000 -> 0 <= x <= 2 ^ 39 -> (10 * k + 100 + 5 * x) * u <= / 1000.
Proof.
  intros k x K X. assert (P : 2 ^ 40 = 2 * 2 ^ 39) by (cbn; lra). pose proof (cap_u (2 * x) ltac:(lra)) as C. pose proof u_tiny as [U0 U1].
  assert (10 * k * u <= 10000 * u) by (apply Rmult_le_compat_r; lra). assert (0 <= x * u) by (apply Rmult_le_pos; lra). lra.
Qed.

Lemma dsum_step : forall k d o W j p t t', 0 <= k <= 1000 -> dsum k d o W j -> moderate p -> fin t -> near (5 * k + 9) (nrm p) (val t) t' -> Rabs t' <= nrm p -> INR j <= 2 ^ 39 ->
  dsum k (fadd d (fabs t)) (o + Rabs t') (W + nrm p) (S j).
Proof.
  intros k d o W j p t t' K (F & H & NN & UW & V0) Mp Ft Nt Bt J. pose proof (pow2_pos 240) as P. pose proof (pos_INR j). pose proof (ipow2_pos 240) as P'.
  pose proof (mod_scale p Mp) as (SL & _). destruct Mp as (_ & L & U).
  assert (UP : W + nrm p <= INR (S j) * 2 ^ 240) by (rewrite S_INR; lra).
  assert (SC : scale (W + nrm p)).
  { split; [lra|]. eapply Rle_trans; [exact UP|]. rewrite S_INR. assert (E1 : 1 <= 2 ^ 39) by (apply pow_R1_Rle; lra).
    apply Rle_trans with (2 ^ 40 * 2 ^ 240); [apply Rmult_le_compat_r; [lra | change (2 ^ 40) with (2 * 2 ^ 39); lra]|].
    rewrite <- pow_add. apply Rle_pow; [lra | lia]. }
  apply near_abs in Nt. rewrite <- fabs_ok in Nt. apply fabs_fin in Ft. pose proof (Rabs_pos t') as AP.
  pose proof (near_acc _ _ _ _ _ _ _ _ H Nt ltac:(lra) ltac:(lra)) as NA.
  assert (AX : Rabs (o + Rabs t') <= 1 * (W + nrm p)) by (rewrite Rabs_pos_eq; lra).
  assert (CU : (5 * k + 9 + 2 * INR j) * u <= / 1000).
  { pose proof (ksum2 k (INR j) K ltac:(lra)) as Q. pose proof u_tiny as [U0 U1]. eapply Rle_trans; [|exact Q]. apply Rmult_le_compat_r; lra. }
  destruct (r_add _ _ _ _ _ _ NA F Ft SC AX ltac:(lra) CU ltac:(lra)) as (F' & N').
  split; [exact F'|]. split; [|split; [lra|split; [lra|apply add_nonneg; auto; rewrite fabs_ok; apply Rabs_pos]]]. rewrite S_INR. eapply near_weak; [| |split; [|apply Rle_refl]|exact N']; lra.
Qed.

Section Sums.
  Context (k : R) (K : 0 <= k <= 1000) (st ct sp cp : f64) (a i : R).
  Context (Hst : fin st) (Nst : near k 1 (val st) (sin i)) (Hct : fin ct) (Nct : near k 1 (val ct) (cos i))
          (Hsp : fin sp) (Nsp : near k 1 (val sp) (sin a)) (Hcp : fin cp) (Ncp : near k 1 (val cp) (cos a)).

  Lemma fold_ok : forall l s o N j, Forall moderate l -> dsum k (ft_abs s) o N j -> nsum (ft_norm s) N j -> INR (j + length l) <= 2 ^ 39 ->
    exists s', ofold (f_thrust_step st ct sp cp) l s = Some s' /\
      dsum k (ft_abs s') (o + rsum (map (fun p => Rabs (along p (unit_axis a i))) (map mom_of l))) (N + total_norm (map mom_of l)) (j + length l) /\
      nsum (ft_norm s') (N + total_norm (map mom_of l)) (j + length l).
  Proof.
    induction l as [|p l IH]; intros s o N j Ml A B J.
    - exists s. unfold total_norm. cbn [ofold map rsum length]. rewrite Nat.add_0_r, !Rplus_0_r. auto.
    - inversion Ml as [|? ? Mp Ml']; subst. destruct (norm_ok p Mp) as (r & E & Fr & Nr).
      destruct (along_ok k K st ct sp cp a i Hst Nst Hct Nct Hsp Nsp Hcp Ncp p Mp) as (Ft & Nt).
      assert (J1 : INR j <= 2 ^ 39) by (eapply Rle_trans; [apply le_INR | exact J]; lia).
      assert (J2 : INR j <= 2 ^ 40) by (eapply Rle_trans; [exact J1 | apply Rle_pow; [lra | lia]]).
      pose proof (dsum_step k _ _ _ _ p _ _ K A Mp Ft Nt (along_le a i (mom_of p)) J1) as A1.
      pose proof (nsum_step _ _ _ p r B Mp Fr Nr J2) as B1.
      cbn [length] in J. rewrite Nat.add_succ_r, <- Nat.add_succ_l in J.
      cbn [ofold]. unfold f_thrust_step at 1. rewrite E. cbn [obind].
      match goal with |- context [ofold _ l ?s1] => destruct (IH s1 _ _ _ Ml' A1 B1 J) as (s' & E2 & A2 & B2) end.
      exists s'. split; [exact E2|]. unfold total_norm in *. cbn [map rsum length]. rewrite Nat.add_succ_r, <- Nat.add_succ_l, <- !Rplus_assoc. auto.
  Qed.
End Sums.

(** * C176 *)

(** With sin and cos accurate to k units of 2^-53 at the two angles, the thrust computed for n particles of moderate momentum (at most 2^19
    of them) is within (6 k + 5 n + 30) u of the textbook thrust along the axis of those angles, so it is a number in [-that, 1 + that]. *)
Theorem C176_accuracy : forall fsin fcos k az inc l, 0 <= k <= 1000 ->
  trig_ok k fsin sin inc -> trig_ok k fcos cos inc -> trig_ok k fsin sin az -> trig_ok k fcos cos az ->
  l <> [] -> (Z.of_nat (length l) <= 524288)%Z -> Forall moderate l ->
  exists t, f_thrust fsin fcos az inc l = Some t /\ fin t /\
    Rabs (val t - thrust_along (map mom_of l) (unit_axis (val az) (val inc))) <= (6 * k + 5 * INR (length l) + 30) * u /\
    0 <= val t <= 1 + (6 * k + 5 * INR (length l) + 30) * u.
Proof.
  intros fsin fcos k az inc l K (F1 & T1) (F2 & T2) (F3 & T3) (F4 & T4) NE LN Ml.
  assert (ZM : forall q, In q (map mom_of l) -> p_sq q <> 0).
  { intros q Hq. apply in_map_iff in Hq as (p & <- & Hp). rewrite Forall_forall in Ml. destruct (mod_pos p (Ml p Hp)). auto. }
  set (n := length l) in *. assert (n1 : (1 <= n)%nat) by (unfold n; destruct l; [contradiction | cbn; lia]).
  assert (RN : 1 <= INR n <= 524288). { split; [apply (le_INR 1); exact n1|]. rewrite INR_IZR_INZ. apply IZR_le. exact LN. }
  assert (N1 : forall f g x, Rabs (val (f x) - g (val x)) <= k * u -> near k 1 (val (f x)) (g (val x))) by (intros; unfold near; lra).
  assert (A0 : dsum k fzero 0 0 0). { split; [reflexivity|]. cbn [INR]. unfold near. change (val fzero) with 0. rewrite Rminus_0_r, Rabs_R0. repeat split; lra. }
  assert (B0 : nsum fzero 0 0). { split; [reflexivity|]. cbn [INR]. unfold near. change (val fzero) with 0. rewrite Rminus_0_r, Rabs_R0. lra. }
  assert (P39 : 524288 <= 2 ^ 39). { replace 524288 with (2 ^ 19) by (cbn; lra). apply Rle_pow; [lra | lia]. }
  destruct (fold_ok k K (fsin inc) (fcos inc) (fsin az) (fcos az) (val az) (val inc) F1 (N1 _ _ _ T1) F2 (N1 _ _ _ T2) F3 (N1 _ _ _ T3) F4 (N1 _ _ _ T4) l
              (FTAcc fzero fzero fzero fzero) 0 0 0%nat Ml A0 B0) as (s & E & A & B); [cbn [Nat.add]; fold n; lra|].
  cbn [Nat.add] in A, B. fold n in A, B. rewrite !Rplus_0_l in A. rewrite !Rplus_0_l in B.
  set (L := map mom_of l) in *. assert (LE : L <> []) by (unfold L; destruct l; [contradiction | discriminate]).
  pose proof (total_norm_pos L LE ZM) as TP. set (N := total_norm L) in *.
  destruct A as (Fo & No & O & UW & V0). destruct B as (Fs & Ns & NB). set (o := rsum (map (fun p => Rabs (along p (unit_axis (val az) (val inc)))) L)) in *.
  pose proof u_tiny as [U0 U1].
  assert (CAP : (10 * k + 100 + 5 * INR n) * u <= / 10000).
  { apply Rle_trans with (10000000 * u); [apply Rmult_le_compat_r; lra | lra]. }
  assert (CK : forall c, 0 <= c <= 10 * k + 100 + 5 * INR n -> c * u <= / 10000).
  { intros c Hc. eapply Rle_trans; [|exact CAP]. apply Rmult_le_compat_r; lra. }
  assert (DN : 0 < val (ft_norm s)).
  { unfold near in Ns. apply Rabs_le_inv in Ns. assert ((7 + 2 * INR n) * u * N <= / 10000 * N) by (apply Rmult_le_compat_r; [lra | apply CK; lra]). lra. }
  unfold f_thrust, f_thrust_with_grad. rewrite E. cbn [obind]. rewrite fdiv_py_ok by (try assumption; lra). cbn [obind fst]. rewrite fneg_neg.
  assert (AO : Rabs o <= 1 * (N * 1)) by (rewrite Rabs_pos_eq; lra).
  assert (No' : near (5 * k + 9 + 2 * INR n) (N * 1) (val (ft_abs s)) o) by (rewrite Rmult_1_r; exact No).
  pose proof (near_div (5 * k + 9 + 2 * INR n) (7 + 2 * INR n) N 1 (val (ft_abs s)) o (val (ft_norm s)) 1 ltac:(lra) ltac:(lra) ltac:(apply CK; lra) TP ltac:(lra) ltac:(lra) AO No' Ns) as NQ.
  assert (EC : o / N = thrust_along L (unit_axis (val az) (val inc))) by reflexivity. rewrite EC in NQ.
  pose proof (thrust_bounds L (unit_axis (val az) (val inc)) LE ZM (unit_axis_norm (val az) (val inc))) as TB.
  assert (AC : Rabs (thrust_along L (unit_axis (val az) (val inc))) <= 1 * 1) by (rewrite Rabs_pos_eq; lra).
  assert (CQ : (5 * k + 9 + 2 * INR n + 1 * (7 + 2 * INR n)) * (1001 / 1000) * u <= / 1000).
  { eapply Rle_trans; [apply (CK ((5 * k + 9 + 2 * INR n + 1 * (7 + 2 * INR n)) * (1001 / 1000))); lra | lra]. }
  destruct (r_div _ _ _ _ _ _ NQ Fo Fs scale_1 AC ltac:(lra) ltac:(lra) CQ ltac:(lra)) as (Fc & Nc).
  exists (fdiv (ft_abs s) (ft_norm s)). split; [reflexivity|]. split; [exact Fc|].
  assert (RES : Rabs (val (fdiv (ft_abs s) (ft_norm s)) - thrust_along L (unit_axis (val az) (val inc))) <= (6 * k + 5 * INR n + 30) * u).
  { apply near_weak with (d := 6 * k + 5 * INR n + 30) (n := 1) in Nc; [|lra|lra|lra]. unfold near in Nc. rewrite Rmult_1_r in Nc. exact Nc. }
  split; [exact RES|]. apply Rabs_le_inv in RES. split; [|lra].
  apply div_nonneg; assumption.
Qed.
Print Assumptions C176_accuracy.

(** The routine fails, whatever the angles and the other particles, if there is no particle or one of them is at rest. *)
Lemma ofold_none : forall {A} (f : A -> rec3 -> option A) l q, In q l -> (forall s, f s q = None) -> forall s, ofold f l s = None.
Proof.
  intros A f l q. induction l as [|p l IH]; intros Hq H s; [contradiction|]. cbn [ofold]. destruct Hq as [E|Hq].
  - rewrite E, H. reflexivity.
  - destruct (f s p); cbn [obind]; [apply IH; assumption | reflexivity].
Qed.
Lemma norm_rest : forall x y z, fin x -> fin y -> fin z -> val x = 0 -> val y = 0 -> val z = 0 -> f_norm3 (x, y, z) = None.
Proof.
  assert (Z : forall x, fin x -> val x = 0 -> exists s, x = B754_zero s).
  { intros x F V. destruct x as [s|s| |s m e Hb]; try discriminate F; [exists s; reflexivity|]. exfalso. unfold val in V. cbn in V. apply eq_0_F2R in V. destruct s; discriminate V. }
  intros x y z Fx Fy Fz X Y W. destruct (Z x Fx X) as (s & ->). destruct (Z y Fy Y) as (t & ->). destruct (Z z Fz W) as (v & ->). destruct s, t, v; reflexivity.
Qed.
Theorem C176_fails : forall fsin fcos az inc l,
  (l = [] \/ exists x y z, In (x, y, z) l /\ fin x /\ fin y /\ fin z /\ val x = 0 /\ val y = 0 /\ val z = 0) -> f_thrust fsin fcos az inc l = None.
Proof.
  intros fsin fcos az inc l [->|(x & y & z & Hq & Fx & Fy & Fz & X & Y & Z)].
  - unfold f_thrust, f_thrust_with_grad. cbn [ofold obind ft_abs ft_norm]. reflexivity.
  - unfold f_thrust, f_thrust_with_grad. rewrite (ofold_none _ l (x, y, z) Hq); [reflexivity|]. intros s. unfold f_thrust_step. rewrite norm_rest by assumption. reflexivity.
Qed.
Print Assumptions C176_fails.

(** What holds of the bound by 1: it is exceeded by rounding errors at most. *)
Theorem C182_bound_partial : forall fsin fcos k az inc l t, 0 <= k <= 1000 ->
  trig_ok k fsin sin inc -> trig_ok k fcos cos inc -> trig_ok k fsin sin az -> trig_ok k fcos cos az ->
  l <> [] -> (Z.of_nat (length l) <= 524288)%Z -> Forall moderate l -> f_thrust fsin fcos az inc l = Some t ->
  val t <= 1 + (6 * k + 5 * INR (length l) + 30) * u.
Proof.
  intros fsin fcos k az inc l t K T1 T2 T3 T4 N L M E. destruct (C176_accuracy fsin fcos k az inc l K T1 T2 T3 T4 N L M) as (t' & E' & _ & _ & B).
  rewrite E in E'. injection E' as <-. lra.
Qed.
Print Assumptions C182_bound_partial.

(** A single particle along the axis has thrust 1 in exact arithmetic; computed with exact sin and cos it can exceed 1. *)
Definition exact_sin (x : f64) : f64 := fzero.
Definition exact_cos (x : f64) : f64 := fone.
Lemma trig_0 : trig_ok 0 exact_sin sin fzero /\ trig_ok 0 exact_cos cos fzero.
Proof.
  destruct (lit_ok 1 0 ltac:(lia) ltac:(lia)) as (V1 & _).
  split; (split; [reflexivity|]); change (val fzero) with 0; [change (val (exact_sin fzero)) with 0; rewrite sin_0 | change (val (exact_cos fzero)) with (val (lit 1 0)); rewrite V1, cos_0; cbn];
    rewrite ?Rminus_0_r; replace (1 * 1 - 1) with 0 by ring; rewrite ?Rabs_R0; lra.
Qed.
Theorem C182_thrust_above_one_refuted : exists p t, fin3 p /\ norm3 (mom_of p) = 49 /\ thrust_along [mom_of p] (unit_axis 0 0) = 1 /\
  f_thrust exact_sin exact_cos fzero fzero [p] = Some t /\ val t > 1.
Proof.
  destruct (lit_ok 49 0 ltac:(lia) ltac:(lia)) as (V & F). assert (V49 : val (lit 49 0) = 49) by (rewrite V; cbn; lra).
  exists (fzero, fzero, lit 49 0). eexists (lit 4503599627370497 (-52)).
  assert (N : norm3 (mom_of (fzero, fzero, lit 49 0)) = 49).
  { unfold norm3, p_sq, mom_of. cbn [fst snd px py pz]. rewrite V49. change (val fzero) with 0. replace (0 * 0 + 0 * 0 + 49 * 49) with (49 * 49) by ring. apply sqrt_square. lra. }
  split; [split; [reflexivity | split; [reflexivity | exact F]]|]. split; [exact N|]. split.
  - unfold thrust_along, total_norm. cbn [map rsum]. rewrite N. unfold along, unit_axis, mom_of. cbn [fst snd px py pz vx vy vz]. rewrite V49, sin_0, cos_0. change (val fzero) with 0.
    replace (0 * (0 * 1) + 0 * (0 * 0) + 49 * 1) with 49 by ring. rewrite Rabs_pos_eq by lra. field.
  - split.
    + match goal with |- ?g = _ => assert (C : match g with Some t => B2SF t = B2SF (lit 4503599627370497 (-52)) | None => False end) by (vm_compute; reflexivity); destruct g as [t|] end;
        [|contradiction]. f_equal. apply B2SF_inj. exact C.
    + destruct (lit_ok 4503599627370497 (-52) ltac:(lia) ltac:(lia)) as (W & _). rewrite W. change (bpow radix2 (-52)) with (/ 4503599627370496). lra.
Qed.
Print Assumptions C182_thrust_above_one_refuted.

(** The hypotheses of the accuracy theorem hold for that particle and these routines. *)
Example C176_case : moderate (fzero, fzero, lit 49 0) /\ trig_ok 0 exact_sin sin fzero /\ trig_ok 0 exact_cos cos fzero /\
  exists t, f_thrust exact_sin exact_cos fzero fzero [(fzero, fzero, lit 49 0)] = Some t /\ Rabs (val t - 1) <= 35 * u.
Proof.
  destruct (lit_ok 49 0 ltac:(lia) ltac:(lia)) as (V & F). assert (V49 : val (lit 49 0) = 49) by (rewrite V; cbn; lra).
  assert (N : norm3 (mom_of (fzero, fzero, lit 49 0)) = 49).
  { unfold norm3, p_sq, mom_of. cbn [fst snd px py pz]. rewrite V49. change (val fzero) with 0. replace (0 * 0 + 0 * 0 + 49 * 49) with (49 * 49) by ring. apply sqrt_square. lra. }
  assert (M : moderate (fzero, fzero, lit 49 0)).
  { split; [split; [reflexivity | split; [reflexivity | exact F]]|]. rewrite N. split.
    - apply Rle_trans with (/ 2 ^ 0); [apply pow_half; lia | cbn; lra].
    - apply Rle_trans with (2 ^ 6); [cbn; lra | apply Rle_pow; [lra | lia]]. }
  destruct trig_0 as (T1 & T2). split; [exact M|]. split; [exact T1|]. split; [exact T2|].
  destruct (C176_accuracy exact_sin exact_cos 0 fzero fzero [(fzero, fzero, lit 49 0)] ltac:(lra) T1 T2 T1 T2 ltac:(discriminate) ltac:(cbn; lia) (Forall_cons _ M (Forall_nil _))) as (t & E & _ & A & _).
  exists t. split; [exact E|]. assert (TT : thrust_along (map mom_of [(fzero, fzero, lit 49 0)]) (unit_axis (val fzero) (val fzero)) = 1).
  { unfold thrust_along, total_norm. cbn [map rsum]. rewrite N. unfold along, unit_axis, mom_of. cbn [fst snd px py pz vx vy vz]. rewrite V49. change (val fzero) with 0. rewrite sin_0, cos_0.
    replace (0 * (0 * 1) + 0 * (0 * 0) + 49 * 1) with 49 by ring. rewrite Rabs_pos_eq by lra. field. }
  rewrite TT in A. cbn [length INR] in A. eapply Rle_trans; [exact A|]. apply Req_le. ring.
Qed.

(** * C177: reversing momenta changes nothing, bit for bit *)

(** [y] is minus [x], up to the sign of a zero. *)
Definition flips (x y : f64) : Prop := y = fneg x \/ exists s t, x = B754_zero s /\ y = B754_zero t.

Definition is_0 (x : f64) : Prop := exists s, x = B754_zero s.
Lemma fadd_neg : forall x y, flips (fadd x y) (fadd (fneg x) (fneg y)).
Proof.
  intros x y. assert (E0 : forall x y, fadd (fneg x) (fneg y) = fneg (fadd x y) \/ (fadd (fneg x) (fneg y) = fadd x y /\ is_0 (fadd x y))).
  { clear. intros x y. destruct x as [s|s| |s m e Hb], y as [t|t| |t n f Hc]; try (left; reflexivity).
    - destruct s, t; first [left; reflexivity | right; split; [reflexivity | eexists; reflexivity]].
    - left. destruct s, t; reflexivity.
    - cbn [fadd fneg Bopp Bplus]. rewrite naive_opp. destruct (Z.eq_dec (Fplus_naive s m e t n f (Z.min e f)) 0) as [Z|Z].
      + rewrite Z. right. split; [reflexivity | eexists; reflexivity].
      + left. apply B2SF_inj. rewrite normalize_neg by exact Z. rewrite <- b2sf_neg. reflexivity. }
  destruct (E0 x y) as [E|(E & s & Z)]; [left; exact E | right; exists s, s; rewrite E; auto].
Qed.
Lemma fadd_zero : forall s b, fadd (B754_zero s) b = b \/ (is_0 b /\ is_0 (fadd (B754_zero s) b)).
Proof. intros s b. destruct b as [t|t| |t n f Hc]; try (left; reflexivity). right. split; [eexists; reflexivity|]. destruct s, t; eexists; reflexivity. Qed.
Lemma flips_add : forall x x' y y', flips x x' -> flips y y' -> flips (fadd x y) (fadd x' y').
Proof.
  assert (Zr : forall s t y y', flips y y' -> flips (fadd (B754_zero s) y) (fadd (B754_zero t) y')).
  { intros s t y y' [->|(v & w & -> & ->)].
    - destruct (fadd_zero s y) as [E|(Y & E)].
      + rewrite E. destruct (fadd_zero t (fneg y)) as [E2|((w & Z) & E2)]; [rewrite E2; left; reflexivity|].
        destruct E2 as (a & E2). rewrite E2. right. destruct y as [c|c| |c m e H]; try discriminate Z. exists c, a. auto.
      + destruct E as (a & E). rewrite E. destruct Y as (c & ->). right. destruct (fadd_zero t (fneg (B754_zero c))) as [E2|(_ & b & E2)]; rewrite E2; [exists a, (negb c) | exists a, b]; auto.
    - right. destruct s, t, v, w; eexists; eexists; split; reflexivity. }
  intros x x' y y' [->|(s & t & -> & ->)] H; [|apply Zr; exact H].
  destruct H as [->|(s & t & -> & ->)]; [apply fadd_neg|].
  rewrite (fadd_comm x), (fadd_comm (fneg x)). apply Zr. left. reflexivity.
Qed.
Lemma flips_abs : forall x y, flips x y -> fabs y = fabs x.
Proof. intros x y [->|(s & t & -> & ->)]; [apply fabs_neg | reflexivity]. Qed.
Lemma fmul_neg_l : forall x y, fmul (fneg x) y = fneg (fmul x y).
Proof. intros x y. rewrite fmul_comm, fmul_neg_r, fmul_comm. reflexivity. Qed.
Lemma fmul_neg_b : forall x y, fmul (fneg x) (fneg y) = fmul x y.
Proof. intros x y. rewrite fmul_neg_l, fmul_neg_r. apply fneg_neg. Qed.
Lemma flips_mul_l : forall x y z, flips x y -> fmul (fmul x z) (fmul x z) = fmul (fmul y z) (fmul y z).
Proof.
  intros x y z [->|(s & t & -> & ->)]; [rewrite fmul_neg_l, fmul_neg_b; reflexivity|].
  destruct s, t, z as [w|w| |w m e H]; try (destruct w); reflexivity.
Qed.
Lemma flips_sub : forall x x' y y', flips x x' -> flips y y' -> flips (fsub x y) (fsub x' y').
Proof.
  intros x x' y y' X Y. rewrite !fsub_add. apply flips_add; [exact X|]. destruct Y as [->|(s & t & -> & ->)]; [left; reflexivity|].
  right. exists (negb s), (negb t). auto.
Qed.
Lemma three_norm_flips : forall x y z x' y' z', flips x x' -> flips y y' -> flips z z' -> f_three_norm x' y' z' = f_three_norm x y z.
Proof.
  intros x y z x' y' z' X Y Z. unfold f_three_norm. rewrite (flips_abs _ _ X), (flips_abs _ _ Y), (flips_abs _ _ Z).
  rewrite <- (flips_mul_l x x'), <- (flips_mul_l y y'), <- (flips_mul_l z z') by assumption. reflexivity.
Qed.

(** Each particle of [m] is the one of [l] in the same place or that one with its momentum reversed. *)
Definition some_reversed (l m : list (f64 * f64 * f64)) : Prop :=
  Forall2 (fun p q => q = p \/ let '(x, y, z) := p in q = (fneg x, fneg y, fneg z)) l m.

Theorem C177_thrust : forall fsin fcos az inc l m, some_reversed l m -> f_thrust fsin fcos az inc m = f_thrust fsin fcos az inc l.
Proof.
  intros fsin fcos az inc l m H. unfold f_thrust, f_thrust_with_grad.
  set (f := f_thrust_step _ _ _ _).
  assert (S : forall s s', ft_abs s = ft_abs s' -> ft_norm s = ft_norm s' ->
            match ofold f l s, ofold f m s' with Some a, Some b => ft_abs a = ft_abs b /\ ft_norm a = ft_norm b | None, None => True | _, _ => False end).
  { induction H as [|p q l m Hpq _ IH]; intros s s' E1 E2; [cbn; auto|]. cbn [ofold].
    assert (P : match f s p, f s' q with Some a, Some b => ft_abs a = ft_abs b /\ ft_norm a = ft_norm b | None, None => True | _, _ => False end).
    { unfold f, f_thrust_step. destruct p as ((x, y), z). destruct Hpq as [H0|H0]; rewrite H0; clear H0.
      - destruct (f_norm3 (x, y, z)) as [n|]; cbn [obind ft_abs ft_norm]; [rewrite E1, E2; auto | exact I].
      - assert (EN : f_norm3 (fneg x, fneg y, fneg z) = f_norm3 (x, y, z)) by (apply three_norm_flips; left; reflexivity). rewrite EN.
        destruct (f_norm3 (x, y, z)) as [n|]; cbn [obind ft_abs ft_norm]; [|exact I]. unfold rx, ry, rz. cbn [fst snd].
        match goal with |- fadd _ (fabs ?a) = fadd _ (fabs ?b) /\ _ => assert (F : fabs b = fabs a) end.
        { apply flips_abs. apply flips_add; [apply flips_add|]; left; apply fmul_neg_r. }
        rewrite F, E1, E2. auto. }
    destruct (f s p) as [a|], (f s' q) as [b|]; cbn [obind]; try contradiction; [|exact I]. destruct P as (P1 & P2). apply IH; assumption. }
  specialize (S (FTAcc fzero fzero fzero fzero) (FTAcc fzero fzero fzero fzero) eq_refl eq_refl).
  destruct (ofold f l _) as [a|], (ofold f m _) as [b|]; try contradiction; [|reflexivity]. destruct S as (S1 & S2). cbn [obind]. rewrite S1, S2. 
  destruct (fdiv_py (ft_abs b) (ft_norm b)); reflexivity.
Qed.
Print Assumptions C177_thrust.

Theorem C177_spherocity : forall fsin fcos phi theta l m, some_reversed l m -> f_spherocity_with_grad fsin fcos phi theta m = f_spherocity_with_grad fsin fcos phi theta l.
Proof.
  intros fsin fcos phi theta l m H. unfold f_spherocity_with_grad. f_equal. generalize (FSAcc fzero fzero fzero fzero) as s.
  induction H as [|p q l m Hpq _ IH]; intros s; [reflexivity|]. cbn [ofold].
  assert (P : forall s, f_spherocity_step (fcos phi) (fsin phi) (fcos theta) (fsin theta) s q = f_spherocity_step (fcos phi) (fsin phi) (fcos theta) (fsin theta) s p).
  { clear s IH. intros s. destruct p as ((x, y), z). destruct Hpq as [H0|H0]; rewrite H0; clear H0; [reflexivity|]. unfold f_spherocity_step.
    assert (EN : f_norm3 (fneg x, fneg y, fneg z) = f_norm3 (x, y, z)) by (apply three_norm_flips; left; reflexivity). rewrite EN.
    destruct (f_norm3 (x, y, z)) as [n|]; cbn [obind]; [|reflexivity]. unfold rx, ry, rz. cbn [fst snd].
    match goal with |- obind (f_three_norm ?a ?b ?c) _ = obind (f_three_norm ?d ?e ?f) _ => assert (EC : f_three_norm a b c = f_three_norm d e f) end.
    { apply three_norm_flips; apply flips_sub; left; apply fmul_neg_l. }
    rewrite EC. repeat (rewrite ?fmul_neg_b, ?fmul_neg_l, ?fmul_neg_r, ?fneg_neg). reflexivity. }
  rewrite P. destruct (f_spherocity_step _ _ _ _ s p); cbn [obind]; [apply IH | reflexivity].
Qed.
Print Assumptions C177_spherocity.
