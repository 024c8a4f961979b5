(** Accuracy of the rapidity and of delta_R with pseudo=False, from the momenta, in IEEE doubles (C221, C222). *)
From Coq Require Import ZArith Reals List Bool Lia Lra.
From Flocq Require Import Core BinarySingleNaN.
From Verif Require Import Prelude SpecReal SpecIEEE SpecDist RealBase Kinem KinemProofs DeltaR DeltaRProofs Floats FloatBase FloatOps P_Float P_Float6 P_Float7 P_Float9 P_Float19.
Import ListNotations.
Open Scope R_scope.

(** * Vocabulary *)
(** The C library's log is accurate to [k] units. *)
Definition good_log (k : R) (log : f64 -> f64) : Prop := forall x, fin x -> 0 < val x -> fin (log x) /\ close k (val (log x)) (ln (val x)).
(** An energy and a longitudinal momentum in range, with the energy above |pz| by more than the tolerance. *)
Definition timelike (tol e z : f64) : Prop :=
  fin tol /\ fin e /\ fin z /\ / 2 ^ 100 <= val tol /\ val e <= 2 ^ 500 /\ val tol < nearest (val e - Rabs (val z)).
(** The exact momentum of the doubles. *)
Definition exactly4 (x y z e : f64) : mom := Mom (val x) (val y) (val z) (val e).
(** The error allowed to a rapidity [y] by a log accurate to [k] units. *)
Definition rap_error (k y : R) : R := ((k + 2) * Rabs y + 2) * u.

Lemma copysign_mag x s : fin x -> fin (copysign x s) /\ val (copysign x s) = if negative s then - Rabs (val x) else Rabs (val x).
Proof.
  intros F. unfold copysign. assert (E : match x with B754_nan => B754_nan | _ => if Bool.eqb (Bsign x) (Bsign s) then x else Bopp x end = if Bool.eqb (Bsign x) (Bsign s) then x else fneg x).
  { destruct x; try reflexivity. discriminate F. }
  rewrite E. unfold negative. destruct (Rtotal_order (val x) 0) as [L|[Z|G]].
  - pose proof (sign_neg x F L) as S. unfold negative in S. rewrite S, Rabs_left by exact L. destruct (Bsign s); cbn [Bool.eqb]; [split; [exact F | ring] | rewrite fneg_ok; split; [apply fneg_fin; exact F | reflexivity]].
  - rewrite Z, Rabs_R0. destruct (Bool.eqb (Bsign x) (Bsign s)).
    + split; [exact F | rewrite Z; destruct (Bsign s); ring].
    + split; [apply fneg_fin; exact F | rewrite fneg_ok, Z; destruct (Bsign s); ring].
  - pose proof (sign_pos x F G) as S. unfold negative in S. rewrite S, (Rabs_right (val x)) by lra. destruct (Bsign s); cbn [Bool.eqb]; [rewrite fneg_ok; split; [apply fneg_fin; exact F | reflexivity] | split; [exact F | reflexivity]].
Qed.

Lemma ln_ratio a b : 0 < a -> 0 < b -> ln (a / b) = ln a - ln b.
Proof. intros A B. unfold Rdiv. rewrite ln_mult, ln_Rinv by (try apply Rinv_0_lt_compat; assumption). ring. Qed.
Lemma ln_close q d : 0 < q -> 0 <= d <= / 2 -> (1 - d) * q <= q + 0 -> forall r, Rabs (r - q) <= d * q -> 0 < r /\ Rabs (ln r - ln q) <= d / (1 - d).
Proof.
  intros Q D _ r H. apply Rabs_le_inv in H. assert (0 <= d * q) by (apply Rmult_le_pos; lra). assert (L : (1 - d) * q <= r) by lra. assert (0 < (1 - d) * q) by (apply Rmult_lt_0_compat; lra).
  split; [lra|]. apply Rabs_le. split.
  - assert (ln q - ln r <= d / (1 - d)); [|lra]. rewrite <- ln_ratio by lra. eapply Rle_trans; [apply ln_le_sub; apply Rdiv_lt_0_compat; lra|].
    apply Rle_trans with (q / ((1 - d) * q) - 1).
    + apply Rplus_le_compat_r. apply Rmult_le_compat_l; [lra|]. apply Rinv_le_contravar; lra.
    + right. field. lra.
  - rewrite <- ln_ratio by lra. eapply Rle_trans; [apply ln_le_sub; apply Rdiv_lt_0_compat; lra|].
    replace (r / q - 1) with ((r - q) / q) by (field; lra). apply Rle_trans with (d * q / q); [apply Rmult_le_compat_r; [left; apply Rinv_0_lt_compat; lra | lra]|].
    replace (d * q / q) with d by (field; lra). apply Rmult_le_reg_r with (1 - d); [lra|]. unfold Rdiv. rewrite Rmult_assoc, Rinv_l by lra. nra.
Qed.

(** The exact rapidity from |pz|. *)
Lemma rap_abs p : Rabs (pz p) < en p -> let a := Rabs (pz p) in let y := / 2 * ln ((en p + a) / (en p - a)) in 0 <= y /\ (true_rap p = if Rlt_dec (pz p) 0 then - y else y).
Proof.
  intros H a y. pose proof (Rabs_pos (pz p)) as A. fold a in A, H. split.
  - unfold y. apply Rmult_le_pos; [lra|]. rewrite <- ln_1. assert (1 <= (en p + a) / (en p - a)) as [L|L].
    { apply Rmult_le_reg_r with (en p - a); [lra|]. unfold Rdiv. rewrite Rmult_assoc, Rinv_l by lra. lra. }
    + left. apply ln_increasing; lra.
    + rewrite <- L. lra.
  - unfold true_rap, y, a in *. destruct (Rlt_dec (pz p) 0) as [N|N].
    + rewrite Rabs_left in * by exact N. replace ((en p + - pz p) / (en p - - pz p)) with (/ ((en p + pz p) / (en p - pz p))) by (field; lra). rewrite ln_Rinv by (apply Rdiv_lt_0_compat; lra). ring.
    + rewrite Rabs_pos_eq by lra. reflexivity.
Qed.

(** * C221 *)
(** The computed rapidity is finite and is the exact rapidity of the stored energy and longitudinal momentum up to [k + 2] units of it plus
    2 units absolute: no loss of accuracy for fast particles, unlike C215. *)
Theorem C221_accuracy : forall log k, 1 <= k <= 1000 -> good_log k log -> forall tol x y z e, timelike tol e z ->
  let p := exactly4 x y z e in
  fin (f_rapidity log tol e z) /\ Rabs (val (f_rapidity log tol e z) - true_rap p) <= rap_error k (true_rap p).
Proof.
  intros log k K GL tol x y z e (FT & FE & FZ & LT & UE & HD) p. pose proof u_b as [U0 U1]. pose proof mn_pos as MN. destruct mn_tiny as [_ MU].
  set (a := Rabs (val z)) in *. assert (A0 : 0 <= a) by apply Rabs_pos. assert (T0 : 0 < / 2 ^ 100) by (apply Rinv_0_lt_compat, pow_lt; lra).
  assert (FA : fin (fabs z)) by (apply fabs_fin; exact FZ). assert (VA : val (fabs z) = a) by apply fabs_ok.
  destruct (sub_rel e (fabs z)) as (e1 & E1 & R1). destruct (add_rel e (fabs z)) as (e2 & E2 & R2). rewrite VA in R1, R2.
  apply Rabs_le_inv in E1, E2.
  assert (DP : 0 < val e - a). { destruct (Rle_lt_dec (val e - a) 0) as [L|L]; [|exact L]. rewrite R1 in HD. exfalso. nra. }
  assert (P5 : 1 <= 2 ^ 500) by (apply pow_R1_Rle; lra).
  assert (HG : 4 * 2 ^ 500 <= 2 ^ 1000 /\ 2 ^ 1000 <= SpecIEEE.huge).
  { split; [replace 1000%nat with (2 + (500 + 498))%nat by reflexivity; rewrite !pow_add; assert (1 <= 2 ^ 498) by (apply pow_R1_Rle; lra); replace (2 ^ 2) with 4 by ring; nra | unfold SpecIEEE.huge; apply Rle_pow; [lra | lia]]. }
  destruct HG as (HG1 & HG2).
  destruct (fsub_ok e (fabs z) FE FA) as (VD & FD & _); [rewrite VA; apply no_overflow; apply Rabs_le; lra|]. rewrite VA in VD.
  destruct (fadd_ok e (fabs z) FE FA) as (VS & FS); [rewrite VA; apply no_overflow; apply Rabs_le; lra|]. rewrite VA in VS.
  set (D := fsub e (fabs z)) in *. set (S := fadd e (fabs z)) in *.
  assert (DT : / 2 ^ 100 < val D) by (rewrite VD; lra).
  assert (BR : flt tol (fabs D) = true). { apply flt_ok; [exact FT | apply fabs_fin; exact FD|]. rewrite fabs_ok, Rabs_pos_eq by lra. rewrite VD. exact HD. }
  unfold f_rapidity. cbv zeta. fold D. fold S. rewrite BR.
  set (q := (val e + a) / (val e - a)). assert (Q1 : 1 <= q). { unfold q. apply Rmult_le_reg_r with (val e - a); [exact DP|]. unfold Rdiv. rewrite Rmult_assoc, Rinv_l by lra. lra. }
  assert (SD : val S / val D = q * ((1 + e2) / (1 + e1))) by (rewrite VS, VD, R1, R2; unfold q; field; lra).
  assert (RQ : Rabs ((1 + e2) / (1 + e1) - 1) <= 21 / 10 * u).
  { replace ((1 + e2) / (1 + e1) - 1) with ((e2 - e1) / (1 + e1)) by (field; lra). unfold Rdiv. rewrite Rabs_mult, (Rabs_pos_eq (/ (1 + e1))) by (left; apply Rinv_0_lt_compat; lra).
    apply Rmult_le_reg_r with (1 + e1); [lra|]. rewrite Rmult_assoc, Rinv_l by lra. rewrite Rmult_1_r. apply Rle_trans with (2 * u); [apply Rabs_le; lra | nra]. }
  assert (QB : Rabs (val S / val D - q) <= 21 / 10 * u * q).
  { rewrite SD. replace (q * ((1 + e2) / (1 + e1)) - q) with (((1 + e2) / (1 + e1) - 1) * q) by ring. rewrite Rabs_mult, (Rabs_pos_eq q) by lra. apply Rmult_le_compat_r; lra. }
  set (w := val S / val D) in *. assert (WB : Rabs w <= 2 ^ 1000).
  { unfold w. assert (S0 : 0 <= val S <= 3 * 2 ^ 500) by (rewrite VS, R2; split; nra).
    rewrite Rabs_pos_eq by (apply Rmult_le_pos; [lra | left; apply Rinv_0_lt_compat; lra]).
    apply Rle_trans with (3 * 2 ^ 500 * 2 ^ 100).
    - apply Rmult_le_compat; [lra | left; apply Rinv_0_lt_compat; lra | lra |]. rewrite <- (Rinv_inv (2 ^ 100)). apply Rinv_le_contravar; lra.
    - replace 1000%nat with (2 + (500 + (100 + 398)))%nat by reflexivity. rewrite !pow_add. assert (1 <= 2 ^ 398) by (apply pow_R1_Rle; lra). assert (1 <= 2 ^ 100) by (apply pow_R1_Rle; lra). replace (2 ^ 2) with 4 by ring.
      assert (0 < 2 ^ 500 * 2 ^ 100) by (apply Rmult_lt_0_compat; lra). nra. }
  destruct (fdiv_ok S D FS FD) as (VQ & FQ & _); [lra | apply no_overflow; change (Rabs w <= SpecIEEE.huge); lra |]. change (val S / val D) with w in VQ.
  set (Q := fdiv S D) in *.
  assert (QB2 : Rabs (val Q - q) <= 32 / 10 * u * q).
  { rewrite VQ. pose proof (nearest_err_any w) as NE. replace (nearest w - q) with ((nearest w - w) + (w - q)) by ring. eapply Rle_trans; [apply Rabs_triang|].
    assert (Rabs w <= 101 / 100 * q). { replace w with ((w - q) + q) by ring. eapply Rle_trans; [apply Rabs_triang|]. rewrite (Rabs_pos_eq q) by lra. assert (21 / 10 * u * q <= / 100 * q) by (apply Rmult_le_compat_r; lra). lra. }
    assert (u * Rabs w <= u * (101 / 100 * q)) by (apply Rmult_le_compat_l; lra). assert (u * min_normal <= u * (/ 100 * q)) by (apply Rmult_le_compat_l; lra). assert (0 <= u * q) by (apply Rmult_le_pos; lra). lra. }
  destruct (ln_close q (32 / 10 * u) ltac:(lra) ltac:(lra) ltac:(nra) _ QB2) as (Q0 & LQ).
  assert (LQ' : Rabs (ln (val Q) - ln q) <= 33 / 10 * u).
  { eapply Rle_trans; [exact LQ|]. apply Rmult_le_reg_r with (1 - 32 / 10 * u); [lra|]. unfold Rdiv at 1. rewrite Rmult_assoc, Rinv_l by lra. nra. }
  destruct (GL Q FQ Q0) as (FL & CL). unfold close in CL.
  destruct (rap_abs p) as (Y0 & YT); [change (Rabs (val z) < val e); fold a; lra|]. change (pz p) with (val z) in Y0, YT. change (en p) with (val e) in Y0, YT. fold a in Y0, YT. fold q in Y0, YT. set (yy := / 2 * ln q) in *.
  assert (LE : ln q = 2 * yy) by (unfold yy; lra). rewrite LE in LQ'. set (L := log Q) in *. set (l1 := ln (val Q)) in *.
  set (ku := k * u) in *. assert (KU : 0 <= ku <= / 1000000). { unfold ku. split; [apply Rmult_le_pos; lra|]. apply Rle_trans with (1000 * u); [apply Rmult_le_compat_r; lra | unfold u; simpl; lra]. }
  assert (L1 : Rabs l1 <= 2 * yy + 33 / 10 * u). { replace l1 with ((l1 - 2 * yy) + 2 * yy) by ring. eapply Rle_trans; [apply Rabs_triang|]. rewrite (Rabs_pos_eq (2 * yy)) by lra. lra. }
  assert (UU : ku * (5 * u) <= / 100 * u) by nra.
  assert (LV : Rabs (val L - 2 * yy) <= ku * (2 * yy) + 332 / 100 * u).
  { replace (val L - 2 * yy) with ((val L - l1) + (l1 - 2 * yy)) by ring. eapply Rle_trans; [apply Rabs_triang|].
    assert (ku * (Rabs l1 + min_normal) <= ku * (2 * yy + 33 / 10 * u + u)) by (apply Rmult_le_compat_l; lra).
    assert (ku * (2 * yy + 33 / 10 * u + u) <= ku * (2 * yy) + ku * (5 * u)) by (rewrite <- Rmult_plus_distr_l; apply Rmult_le_compat_l; lra). lra. }
  assert (YB : yy <= 2 ^ 1000). { unfold yy. apply Rle_trans with q.
    - assert (ln q <= q - 1) by (apply ln_le_sub; lra). lra.
    - apply Rabs_le_inv in QB. assert (WW : w <= 2 ^ 900).
      { unfold w. assert (S0 : 0 <= val S <= 3 * 2 ^ 500) by (rewrite VS, R2; split; nra).
        apply Rle_trans with (3 * 2 ^ 500 * 2 ^ 100).
        - apply Rmult_le_compat; [lra | left; apply Rinv_0_lt_compat; lra | lra |]. rewrite <- (Rinv_inv (2 ^ 100)). apply Rinv_le_contravar; lra.
        - replace 900%nat with (2 + (500 + (100 + 298)))%nat by reflexivity. rewrite !pow_add. assert (1 <= 2 ^ 298) by (apply pow_R1_Rle; lra). assert (1 <= 2 ^ 100) by (apply pow_R1_Rle; lra). replace (2 ^ 2) with 4 by ring.
          assert (0 < 2 ^ 500 * 2 ^ 100) by (apply Rmult_lt_0_compat; lra). nra. }
      assert (2 ^ 900 * 4 <= 2 ^ 1000). { replace 1000%nat with (900 + (2 + 98))%nat by reflexivity. rewrite !pow_add. assert (1 <= 2 ^ 98) by (apply pow_R1_Rle; lra). assert (0 < 2 ^ 900) by (apply pow_lt; lra). replace (2 ^ 2) with 4 by ring. nra. }
      assert (21 / 10 * u * q <= / 100 * q) by (apply Rmult_le_compat_r; lra). lra. }
  destruct (lit_ok 1 (-1) ltac:(lia) ltac:(lia)) as (VH & FH). fold fhalf in VH, FH. change (bpow radix2 (-1)) with (/ 2) in VH. rewrite Rmult_1_l in VH.
  assert (KY : ku * (2 * yy) <= / 1000000 * (2 * yy)) by (apply Rmult_le_compat_r; lra).
  destruct (fmul_ok fhalf L FH FL) as (VM & FM & _).
  { apply no_overflow. rewrite VH. rewrite Rabs_mult, (Rabs_pos_eq (/ 2)) by lra.
    assert (Rabs (val L) <= 2 * yy + (ku * (2 * yy) + 332 / 100 * u)). { replace (val L) with ((val L - 2 * yy) + 2 * yy) by ring. eapply Rle_trans; [apply Rabs_triang|]. rewrite (Rabs_pos_eq (2 * yy)) by lra. lra. }
    assert (1 <= 2 ^ 1000) by (apply pow_R1_Rle; lra).
    assert (2 * 2 ^ 1000 <= SpecIEEE.huge). { unfold SpecIEEE.huge. replace 1023%nat with (1 + (22 + 1000))%nat by reflexivity. rewrite pow_add, pow_1. apply Rmult_le_compat_l; [lra|]. apply Rle_pow; [lra | lia]. }
    change (/ 2 * Rabs (val L) <= SpecIEEE.huge). lra. }
  rewrite VH in VM. set (M := fmul fhalf L) in *.
  assert (MB : Rabs (val M - yy) <= ((k + 2) * yy + 2) * u).
  { rewrite VM. pose proof (nearest_err_any (/ 2 * val L)) as NE. replace (nearest (/ 2 * val L) - yy) with ((nearest (/ 2 * val L) - / 2 * val L) + / 2 * (val L - 2 * yy)) by lra.
    eapply Rle_trans; [apply Rabs_triang|]. rewrite (Rabs_mult (/ 2) (val L - 2 * yy)), (Rabs_pos_eq (/ 2)) by lra. rewrite (Rabs_mult (/ 2)), (Rabs_pos_eq (/ 2)) in NE by lra.
    assert (VB : Rabs (val L) <= 2 * yy + (ku * (2 * yy) + 332 / 100 * u)). { replace (val L) with ((val L - 2 * yy) + 2 * yy) by ring. eapply Rle_trans; [apply Rabs_triang|]. rewrite (Rabs_pos_eq (2 * yy)) by lra. lra. }
    assert (u * (/ 2 * Rabs (val L)) <= u * (3 / 2 * yy + 2 * u)) by (apply Rmult_le_compat_l; lra).
    assert (u * min_normal <= u * u) by (apply Rmult_le_compat_l; lra). assert (u * u <= / 1000 * u) by (apply Rmult_le_compat_r; lra). assert (0 <= u * yy) by (apply Rmult_le_pos; lra).
    replace (((k + 2) * yy + 2) * u) with (ku * yy + 2 * (u * yy) + 2 * u) by (unfold ku; ring). lra. }
  destruct (copysign_mag M z FM) as (FC & VC). split; [exact FC|]. rewrite VC. unfold rap_error.
  assert (AM : Rabs (Rabs (val M) - yy) <= ((k + 2) * yy + 2) * u). { rewrite <- (Rabs_pos_eq yy) at 1 by exact Y0. eapply Rle_trans; [apply Rabs_triang_inv2 | exact MB]. }
  assert (TY : Rabs (true_rap p) = yy). { rewrite YT. destruct (Rlt_dec (val z) 0); [rewrite Rabs_Ropp|]; apply Rabs_pos_eq; exact Y0. }
  rewrite TY. destruct (Rtotal_order (val z) 0) as [N|[Z|G]].
  - rewrite (sign_neg z FZ N), YT. destruct (Rlt_dec (val z) 0); [|contradiction]. replace (- Rabs (val M) - - yy) with (- (Rabs (val M) - yy)) by ring. rewrite Rabs_Ropp. exact AM.
  - assert (YZ : yy = 0). { unfold yy, q, a. rewrite Z, Rabs_R0. replace ((val e + 0) / (val e - 0)) with 1 by (field; unfold a in DP; rewrite Z, Rabs_R0 in DP; lra). rewrite ln_1. ring. }
    assert (T0' : true_rap p = 0) by (rewrite YT, YZ; destruct (Rlt_dec (val z) 0); ring). rewrite T0'. rewrite YZ, Rminus_0_r in AM. rewrite Rminus_0_r, YZ. destruct (negative z); [rewrite Rabs_Ropp|]; exact AM.
  - rewrite (sign_pos z FZ G), YT. destruct (Rlt_dec (val z) 0); [lra | exact AM].
Qed.

(** * C222 *)
Lemma rap_size p : Rabs (pz p) < en p -> en p <= 2 ^ 500 -> / 2 ^ 200 <= en p - Rabs (pz p) -> Rabs (true_rap p) <= 2 ^ 800.
Proof.
  intros H E D. destruct (rap_abs p H) as (Y0 & YT). set (a := Rabs (pz p)) in *. set (yy := / 2 * ln ((en p + a) / (en p - a))) in *.
  assert (TY : Rabs (true_rap p) = yy). { rewrite YT. destruct (Rlt_dec (pz p) 0); [rewrite Rabs_Ropp|]; apply Rabs_pos_eq; exact Y0. }
  rewrite TY. unfold yy. assert (A0 : 0 <= a) by apply Rabs_pos. assert (L0 : 0 < / 2 ^ 200) by (apply Rinv_0_lt_compat, pow_lt; lra).
  set (q := (en p + a) / (en p - a)). assert (Q0 : 0 < q) by (apply Rdiv_lt_0_compat; lra). assert (ln q <= q - 1) by (apply ln_le_sub; exact Q0).
  assert (q <= 2 * 2 ^ 500 * 2 ^ 200).
  { unfold q. apply Rmult_le_compat; [lra | left; apply Rinv_0_lt_compat; lra | lra |]. rewrite <- (Rinv_inv (2 ^ 200)). apply Rinv_le_contravar; lra. }
  assert (2 * 2 ^ 500 * 2 ^ 200 <= 2 ^ 800). { replace 800%nat with (1 + (500 + (200 + 99)))%nat by reflexivity. rewrite !pow_add, pow_1. assert (1 <= 2 ^ 99) by (apply pow_R1_Rle; lra). assert (0 < 2 ^ 500) by (apply pow_lt; lra). assert (0 < 2 ^ 200) by (apply pow_lt; lra).
    assert (0 < 2 ^ 500 * 2 ^ 200) by (apply Rmult_lt_0_compat; lra). nra. }
  lra.
Qed.

(** delta_R with pseudo=False, from the momenta of the two particles. *)
Theorem C222_accuracy : forall hypot atan2 log k, 1 <= k <= 1000 -> good_hypot k hypot -> good_atan2 k atan2 -> good_log k log ->
  forall tol x y z e x' y' z' e' g, usable (x, y) -> usable (x', y') -> timelike tol e z -> timelike tol e' z' -> gap (x, y) (x', y') g ->
  let p := exactly4 x y z e in let q := exactly4 x' y' z' e' in
  let exact := sqrt ((true_rap p - true_rap q) * (true_rap p - true_rap q) + g * g) in
  let computed := f_delta hypot atan2 (f_rapidity log tol e z) (f_rapidity log tol e' z') (x, y) (x', y') in
  fin computed /\ Rabs (val computed - exact) <= ((2 * k + 2) * exact + 4) * u + 101 / 100 * (rap_error k (true_rap p) + rap_error k (true_rap q)).
Proof.
  intros hypot atan2 log k K GH GA GL tol x y z e x' y' z' e' g US US' M M' G p q exact computed.
  pose proof u_b as [U0 U1].
  destruct (C221_accuracy log k K GL tol x y z e M) as (F1 & A1). destruct (C221_accuracy log k K GL tol x' y' z' e' M') as (F2 & A2). fold p in A1. fold q in A2.
  unfold computed. set (r1 := f_rapidity log tol e z) in *. set (r2 := f_rapidity log tol e' z') in *.
  assert (KU : 0 <= k * u <= / 1000000). { split; [apply Rmult_le_pos; lra|]. apply Rle_trans with (1000 * u); [apply Rmult_le_compat_r; lra | unfold u; simpl; lra]. }
  assert (SZ : forall a b c d, timelike tol d c -> Rabs (true_rap (exactly4 a b c d)) <= 2 ^ 800).
  { intros a b c d (FT & FE & FZ & LT & UE & HD). destruct (sub_rel d (fabs c)) as (e1 & E1 & R1). rewrite fabs_ok in R1. rewrite R1 in HD. apply Rabs_le_inv in E1.
    assert (T0 : 0 < / 2 ^ 100) by (apply Rinv_0_lt_compat, pow_lt; lra).
    assert (T1 : / 2 ^ 200 <= / 2 ^ 100 * / 2). { rewrite <- Rinv_mult. apply Rinv_le_contravar; [apply Rmult_lt_0_compat; [apply pow_lt|]; lra|]. replace 200%nat with (100 + (1 + 99))%nat by reflexivity. rewrite !pow_add, pow_1. assert (1 <= 2 ^ 99) by (apply pow_R1_Rle; lra). assert (0 < 2 ^ 100) by (apply pow_lt; lra). nra. }
    assert (/ 2 ^ 100 * / 2 <= val d - Rabs (val c)) by nra. apply rap_size; cbn [pz en exactly4]; lra. }
  assert (S1 := SZ x y z e M). assert (S2 := SZ x' y' z' e' M'). fold p in S1. fold q in S2. clear SZ.
  set (e1 := true_rap p) in *. set (e2 := true_rap q) in *. clearbody e1 e2.
  assert (BIG : 4 * 2 ^ 800 <= 2 ^ 1000 /\ 1 <= 2 ^ 800).
  { split; [|apply pow_R1_Rle; lra]. replace 1000%nat with (800 + (2 + 198))%nat by reflexivity. rewrite !pow_add. assert (1 <= 2 ^ 198) by (apply pow_R1_Rle; lra). assert (0 < 2 ^ 800) by (apply pow_lt; lra). replace (2 ^ 2) with 4 by ring. nra. }
  assert (W : forall r e : R, Rabs (r - e) <= rap_error k e -> Rabs e <= 2 ^ 800 -> Rabs r <= 2 ^ 1000).
  { intros r e0 X Y. replace r with ((r - e0) + e0) by ring. eapply Rle_trans; [apply Rabs_triang|]. unfold rap_error in X.
    assert ((k + 2) * u * Rabs e0 <= / 100 * Rabs e0) by (apply Rmult_le_compat_r; [apply Rabs_pos | lra]). lra. }
  destruct (C174_accuracy hypot atan2 k ltac:(lra) GH GA r1 r2 (x, y) (x', y') g F1 F2 (W _ _ A1 S1) (W _ _ A2 S2) US US' G) as (F & A).
  split; [exact F|]. set (D := val (f_delta hypot atan2 r1 r2 (x, y) (x', y'))) in *.
  set (b1 := rap_error k e1) in *. set (b2 := rap_error k e2) in *.
  set (mid := sqrt ((val r1 - val r2) * (val r1 - val r2) + g * g)) in *.
  assert (L : Rabs (mid - exact) <= b1 + b2).
  { unfold mid, exact. eapply Rle_trans; [apply hypot_lip|]. replace (g - g) with 0 by ring. rewrite Rabs_R0.
    replace (val r1 - val r2 - (e1 - e2)) with ((val r1 - e1) + - (val r2 - e2)) by ring. eapply Rle_trans; [apply Rplus_le_compat_r, Rabs_triang|]. rewrite Rabs_Ropp. lra. }
  replace (D - exact) with ((D - mid) + (mid - exact)) by ring. eapply Rle_trans; [apply Rabs_triang|]. apply Rabs_le_inv in L as L'.
  assert (B0 : 0 <= b1 + b2) by (pose proof (Rabs_pos (mid - exact)); lra).
  assert (X : (2 * k + 2) * u * mid <= (2 * k + 2) * u * exact + / 100 * (b1 + b2)).
  { apply Rle_trans with ((2 * k + 2) * u * (exact + (b1 + b2))); [apply Rmult_le_compat_l; [apply Rmult_le_pos; lra | lra]|].
    rewrite Rmult_plus_distr_l. apply Rplus_le_compat_l. apply Rmult_le_compat_r; lra. }
  replace (((2 * k + 2) * mid + 4) * u) with ((2 * k + 2) * u * mid + 4 * u) in A by ring.
  replace (((2 * k + 2) * exact + 4) * u) with ((2 * k + 2) * u * exact + 4 * u) by ring. lra.
Qed.

(** * A correctly rounded log, and a concrete case *)
Definition ref_log (x : f64) : f64 := of_R (ln (val x)).
Lemma ref_log_good : good_log 1 ref_log.
Proof.
  intros x F H. assert (X : bpow radix2 (-1074) <= val x < bpow radix2 1024).
  { pose proof (val_min x ltac:(lra)) as V1. pose proof (val_lt x) as V2. rewrite Rabs_pos_eq in V1, V2 by lra. lra. }
  assert (HB : 1 <= bpow radix2 1024 <= bpow radix2 1074). { split; [change 1 with (bpow radix2 0)|]; apply bpow_le; lia. }
  assert (LN : forall n, (0 <= n)%Z -> ln (bpow radix2 n) = IZR n * ln 2).
  { intros n N. rewrite <- (IZR_Zpower radix2) by exact N. rewrite <- (Z2Nat.id n N) at 1. rewrite <- pow_IZR. change (IZR radix2) with 2. rewrite <- Rpower_pow by lra. unfold Rpower. rewrite ln_exp, INR_IZR_INZ, Z2Nat.id by exact N. reflexivity. }
  assert (L2 : 0 < ln 2 <= 1). { split; [rewrite <- ln_1; apply ln_increasing; lra | pose proof (ln_le_sub 2 ltac:(lra)); lra]. }
  assert (B : Rabs (ln (val x)) <= 2000).
  { apply Rabs_le. split.
    - destruct X as ([X|X] & _).
      + apply ln_increasing in X; [|apply bpow_gt_0]. change (-1074)%Z with (- (1074))%Z in X. rewrite bpow_opp, ln_Rinv, LN in X by (try apply bpow_gt_0; lia). lra.
      + rewrite <- X. change (-1074)%Z with (- (1074))%Z. rewrite bpow_opp, ln_Rinv, LN by (try apply bpow_gt_0; lia). lra.
    - destruct X as (_ & X). apply ln_increasing in X; [|exact H]. rewrite LN in X by lia. lra. }
  destruct (of_R_ok (ln (val x))) as (F' & V).
  - apply no_overflow. eapply Rle_trans; [exact B|]. unfold SpecIEEE.huge. apply Rle_trans with (2 ^ 11); [simpl; lra | apply Rle_pow; [lra | lia]].
  - split; [exact F'|]. unfold ref_log. rewrite V. apply close_nearest.
Qed.

Example C221_case : timelike (lit 1 (-33)) (lit 5 0) (lit (-3) 0) /\ usable (near1 0, near1 0) /\ good_log 1 ref_log /\
  true_rap (exactly4 (near1 0) (near1 0) (lit (-3) 0) (lit 5 0)) = - ln 2.
Proof.
  destruct (lit_ok 1 (-33) ltac:(lia) ltac:(lia)) as (VT & FT). destruct (lit_int 5 ltac:(lia)) as (V5 & F5). destruct (lit_int (-3) ltac:(lia)) as (V3 & F3). destruct (lit_int 2 ltac:(lia)) as (V2 & F2).
  assert (P33 : bpow radix2 (-33) = / 2 ^ 33) by (change (bpow radix2 (- (33)) = / 2 ^ 33); rewrite bpow_opp, <- (IZR_Zpower radix2) by lia; rewrite pow_IZR; reflexivity).
  assert (P33' : 1 <= 2 ^ 33) by (apply pow_R1_Rle; lra).
  split; [|split; [apply usable_near1; lia | split; [apply ref_log_good|]]].
  - split; [exact FT|]. split; [exact F5|]. split; [exact F3|]. rewrite VT, V5, V3, Rmult_1_l, P33. split; [|split].
    + apply Rinv_le_contravar; [apply pow_lt; lra | apply Rle_pow; [lra | lia]].
    + apply Rle_trans with (2 ^ 3); [simpl; lra | apply Rle_pow; [lra | lia]].
    + replace (5 - Rabs (-3)) with (val (lit 2 0)) by (rewrite V2, Rabs_left by lra; ring). rewrite nearest_id by apply val_fmt. rewrite V2.
      assert (/ 2 ^ 33 <= / 1) by (apply Rinv_le_contravar; lra). lra.
  - unfold true_rap, exactly4. cbn [en pz]. rewrite V5, V3. replace ((5 + -3) / (5 - -3)) with (/ (2 * 2)) by field. rewrite ln_Rinv, ln_mult by lra. field.
Qed.
Print Assumptions C221_accuracy.
Print Assumptions C222_accuracy.
