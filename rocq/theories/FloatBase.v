(** Facts about the double-precision operations used by the floating-point proofs. *)
From Coq Require Import ZArith Reals List Bool Lia Lra.
From Flocq Require Import Core BinarySingleNaN Relative Plus_error Div_sqrt_error Sterbenz.
From Verif Require Import SpecIEEE Floats.
Import ListNotations.
Open Scope R_scope.

Lemma bpow_pos_pow : forall n, bpow radix2 (Z.of_nat n) = 2 ^ n.
Proof. intros n. rewrite <- IZR_Zpower by lia. change (IZR (Zpower 2 (Z.of_nat n)) = 2 ^ n). rewrite <- pow_IZR. reflexivity. Qed.
Lemma bpow_neg_pow : forall n, bpow radix2 (- Z.of_nat n) = / 2 ^ n.
Proof. intros n. rewrite bpow_opp, bpow_pos_pow. reflexivity. Qed.

Lemma u_bpow : u = bpow radix2 (-53).
Proof. unfold u. symmetry. exact (bpow_neg_pow 53). Qed.
Lemma u_ro_u : u_ro radix2 53 = u.
Proof. unfold u_ro. rewrite u_bpow. replace (bpow radix2 (-53)) with (bpow radix2 (-1) * bpow radix2 (-52)) by (rewrite <- bpow_plus; reflexivity). reflexivity. Qed.
Lemma u_pos : 0 < u.
Proof. unfold u. apply Rinv_0_lt_compat, pow_lt. lra. Qed.
Lemma u_small : u <= / 1000000000000000.
Proof. unfold u. apply Rinv_le_contravar; [lra|]. rewrite pow_IZR. apply IZR_le. vm_compute. discriminate. Qed.

Notation fmt := (generic_format radix2 (FLT_exp (-1074) 53)).
#[global] Instance prec53 : Prec_gt_0 53 := eq_refl.

Lemma val_fmt : forall x : f64, fmt (val x).
Proof. intros x. exact (generic_format_B2R 53 1024 x). Qed.
Lemma nearest_id : forall x, fmt x -> nearest x = x.
Proof. intros x H. apply round_generic; [apply valid_rnd_N | exact H]. Qed.
Lemma nearest_le : forall x y, x <= y -> nearest x <= nearest y.
Proof. intros x y H. apply round_le; [apply FLT_exp_valid; reflexivity | apply valid_rnd_N | exact H]. Qed.
Lemma nearest_opp : forall x, nearest (- x) = - nearest x.
Proof. intros x. apply round_NE_opp. Qed.
Lemma nearest_fmt : forall x, fmt (nearest x).
Proof. intros x. apply generic_format_round; [apply FLT_exp_valid; reflexivity | apply valid_rnd_N]. Qed.
Lemma nearest_0 : nearest 0 = 0.
Proof. apply round_0. apply valid_rnd_N. Qed.
Lemma nearest_abs : forall x, nearest (Rabs x) = Rabs (nearest x).
Proof. intros x. unfold Rabs at 1. destruct (Rcase_abs x) as [H|H].
  - rewrite nearest_opp. rewrite Rabs_left1; [reflexivity|]. rewrite <- nearest_0. apply nearest_le; lra.
  - rewrite Rabs_pos_eq; [reflexivity|]. rewrite <- nearest_0. apply nearest_le; lra. Qed.
Lemma fmt_bpow : forall e, (-1074 <= e)%Z -> fmt (bpow radix2 e).
Proof. intros e H. apply generic_format_bpow. unfold FLT_exp. lia. Qed.
Lemma nearest_ge_fmt : forall x y, fmt x -> x <= y -> x <= nearest y.
Proof. intros x y F H. rewrite <- (nearest_id x F). apply nearest_le, H. Qed.
Lemma nearest_le_fmt : forall x y, fmt y -> x <= y -> nearest x <= y.
Proof. intros x y F H. rewrite <- (nearest_id y F). apply nearest_le, H. Qed.
Lemma nearest_abs_le : forall x y, fmt y -> Rabs x <= y -> Rabs (nearest x) <= y.
Proof. intros x y F H. rewrite <- nearest_abs. apply nearest_le_fmt; assumption. Qed.
Lemma val_lt : forall x : f64, Rabs (val x) < bpow radix2 1024.
Proof. intros x. exact (abs_B2R_lt_emax 53 1024 x). Qed.

(** the overflow threshold: a value not above 2^1023 never overflows *)
Lemma huge_bpow : huge = bpow radix2 1023.
Proof. symmetry. exact (bpow_pos_pow 1023). Qed.
Lemma huge_lt : huge < bpow radix2 1024.
Proof. rewrite huge_bpow. apply bpow_lt. lia. Qed.
Lemma fmt_huge : fmt huge.
Proof. rewrite huge_bpow. apply fmt_bpow. lia. Qed.
Lemma no_overflow : forall x, Rabs x <= huge -> Rabs (nearest x) < bpow radix2 1024.
Proof. intros x H. eapply Rle_lt_trans; [apply nearest_abs_le; [apply fmt_huge | exact H] | apply huge_lt]. Qed.

Lemma fadd_ok : forall x y, fin x -> fin y -> Rabs (nearest (val x + val y)) < bpow radix2 1024 ->
  val (fadd x y) = nearest (val x + val y) /\ fin (fadd x y).
Proof. intros x y Hx Hy H. pose proof (Bplus_correct 53 1024 prec_pos prec_emax mode_NE x y Hx Hy) as C.
  change (round radix2 (SpecFloat.fexp 53 1024) (round_mode mode_NE) (B2R x + B2R y)) with (nearest (val x + val y)) in C.
  rewrite Rlt_bool_true in C by exact H. destruct C as (A & B & _). split; assumption. Qed.
Lemma fsub_ok : forall x y, fin x -> fin y -> Rabs (nearest (val x - val y)) < bpow radix2 1024 ->
  val (fsub x y) = nearest (val x - val y) /\ fin (fsub x y)
  /\ negative (fsub x y) = match Rcompare (val x - val y) 0 with Eq => (negative x && negb (negative y))%bool | Lt => true | Gt => false end.
Proof. intros x y Hx Hy H. pose proof (Bminus_correct 53 1024 prec_pos prec_emax mode_NE x y Hx Hy) as C.
  change (round radix2 (SpecFloat.fexp 53 1024) (round_mode mode_NE) (B2R x - B2R y)) with (nearest (val x - val y)) in C.
  rewrite Rlt_bool_true in C by exact H. destruct C as (A & B & D). repeat split; assumption. Qed.
Lemma fmul_ok : forall x y, fin x -> fin y -> Rabs (nearest (val x * val y)) < bpow radix2 1024 ->
  val (fmul x y) = nearest (val x * val y) /\ fin (fmul x y) /\ negative (fmul x y) = xorb (negative x) (negative y).
Proof. intros x y Hx Hy H. pose proof (Bmult_correct 53 1024 prec_pos prec_emax mode_NE x y) as C.
  change (round radix2 (SpecFloat.fexp 53 1024) (round_mode mode_NE) (B2R x * B2R y)) with (nearest (val x * val y)) in C.
  rewrite Rlt_bool_true in C by exact H. destruct C as (A & B & D). unfold fin in *. rewrite Hx, Hy in B.
  split; [exact A|]. split; [exact B|]. apply D. fold (fmul x y) in *. destruct (fmul x y); cbn in *; congruence. Qed.
Lemma fdiv_ok : forall x y, fin x -> fin y -> val y <> 0 -> Rabs (nearest (val x / val y)) < bpow radix2 1024 ->
  val (fdiv x y) = nearest (val x / val y) /\ fin (fdiv x y) /\ negative (fdiv x y) = xorb (negative x) (negative y).
Proof. intros x y Hx Hy Hn H. pose proof (Bdiv_correct 53 1024 prec_pos prec_emax mode_NE x y Hn) as C.
  change (round radix2 (SpecFloat.fexp 53 1024) (round_mode mode_NE) (B2R x / B2R y)) with (nearest (val x / val y)) in C.
  rewrite Rlt_bool_true in C by exact H. destruct C as (A & B & D). unfold fin in *. rewrite Hx in B.
  split; [exact A|]. split; [exact B|]. apply D. fold (fdiv x y) in *. destruct (fdiv x y); cbn in *; congruence. Qed.
Lemma fsqrt_ok : forall x, fin x -> 0 <= val x -> val (fsqrt x) = nearest (sqrt (val x)) /\ fin (fsqrt x).
Proof. intros x Hx Hp. destruct (Bsqrt_correct 53 1024 prec_pos prec_emax mode_NE x) as (A & B & _).
  split; [exact A|]. unfold fin, fsqrt. rewrite B. clear A B. destruct x as [s|s| |s m e Hb]; try (cbn in Hx; discriminate); try reflexivity.
  destruct s; [|reflexivity]. exfalso. apply (Rlt_irrefl 0). eapply Rle_lt_trans; [exact Hp|].
  unfold val, B2R. apply F2R_lt_0. reflexivity. Qed.
Lemma fabs_ok : forall x, val (fabs x) = Rabs (val x).
Proof. intros x. apply B2R_Babs. Qed.
Lemma fabs_fin : forall x, fin (fabs x) <-> fin x.
Proof. intros x. unfold fin, fabs. rewrite is_finite_Babs. tauto. Qed.
Lemma fneg_ok : forall x, val (fneg x) = - val x.
Proof. intros x. apply B2R_Bopp. Qed.
Lemma fneg_fin : forall x, fin (fneg x) <-> fin x.
Proof. intros x. unfold fin, fneg. rewrite is_finite_Bopp. tauto. Qed.
Lemma sign_neg : forall x, fin x -> val x < 0 -> negative x = true.
Proof. intros x F H. destruct x as [s|s| |s m e Hb]; cbn in *; try (unfold val in H; cbn in H; lra).
  destruct s; [reflexivity|]. exfalso. apply (Rlt_irrefl 0). eapply Rlt_trans; [|exact H]. apply F2R_gt_0. reflexivity. Qed.
Lemma sign_pos : forall x, fin x -> 0 < val x -> negative x = false.
Proof. intros x F H. destruct x as [s|s| |s m e Hb]; cbn in *; try (unfold val in H; cbn in H; lra).
  destruct s; [|reflexivity]. exfalso. apply (Rlt_irrefl 0). eapply Rlt_trans; [exact H|]. apply F2R_lt_0. reflexivity. Qed.
Lemma copysign_val : forall x s, 0 <= val x -> fin x ->
  val (copysign x s) = (if negative s then - val x else val x) /\ fin (copysign x s).
Proof. intros x s Hp Hf. unfold copysign.
  assert (E : negative x = true -> val x = 0).
  { intros H. destruct (Rle_lt_or_eq_dec 0 (val x) Hp) as [L|L]; [|congruence]. rewrite (sign_pos x Hf L) in H. discriminate. }
  destruct x as [b|b| |b m e Hb]; try (cbn in Hf; discriminate); cbn [Bsign] in *;
    match goal with |- context [Bool.eqb ?b ?c] => change c with (negative s); destruct (Bool.eqb b (negative s)) eqn:Q end.
  all: first [apply Bool.eqb_prop in Q | apply Bool.eqb_false_iff in Q].
  - split; [|exact Hf]. change (val (B754_zero b)) with 0. destruct (negative s); lra.
  - split; [|reflexivity]. change (val (Bopp (B754_zero b))) with 0. change (val (B754_zero b)) with 0. destruct (negative s); lra.
  - split; [|exact Hf]. rewrite <- Q. destruct b; [|reflexivity]. specialize (E eq_refl). lra.
  - split; [|reflexivity]. change (val (Bopp (B754_finite b m e Hb))) with (val (fneg (B754_finite b m e Hb))). rewrite fneg_ok.
    destruct b; destruct (negative s); try congruence; try reflexivity. specialize (E eq_refl). lra. Qed.

(** relative errors *)
Lemma add_rel : forall x y : f64, exists e, Rabs e <= u /\ nearest (val x + val y) = (val x + val y) * (1 + e).
Proof. intros x y. destruct (FLT_plus_error_N_ex radix2 (-1074) 53 (fun n => negb (Z.even n)) (val x) (val y) (val_fmt x) (val_fmt y)) as (e & He & E).
  exists e. split; [|exact E]. eapply Rle_trans; [exact He|]. rewrite u_ro_u. pose proof u_pos. apply Rmult_le_reg_r with (1 + u); [lra|].
  unfold Rdiv. rewrite Rmult_assoc, Rinv_l by lra. nra. Qed.
Lemma sub_rel : forall x y : f64, exists e, Rabs e <= u /\ nearest (val x - val y) = (val x - val y) * (1 + e).
Proof. intros x y. destruct (add_rel x (fneg y)) as (e & He & E). rewrite fneg_ok in E. exists e. split; [exact He|]. exact E. Qed.
Lemma sqrt_rel : forall x : f64, exists e, Rabs e <= u /\ nearest (sqrt (val x)) = sqrt (val x) * (1 + e).
Proof. intros x. destruct (sqrt_error_N_FLT_ex radix2 53 (fun n => negb (Z.even n)) eq_refl (-1074) ltac:(lia) (val x) (val_fmt x)) as (e & He & E).
  exists e. split; [|exact E]. eapply Rle_trans; [exact He|]. rewrite u_ro_u. pose proof u_pos as U.
  assert (S : sqrt (1 + 2 * u) <= 1 + u). { rewrite <- (sqrt_Rsqr (1 + u)) by lra. apply sqrt_le_1; unfold Rsqr; nra. }
  assert (S0 : 0 < sqrt (1 + 2 * u)) by (apply sqrt_lt_R0; lra).
  assert (/ (1 + u) <= / sqrt (1 + 2 * u)) by (apply Rinv_le_contravar; lra).
  assert (1 - u <= / (1 + u)); [|unfold Rdiv; lra].
  apply Rmult_le_reg_r with (1 + u); [lra|]. rewrite Rinv_l by lra. nra. Qed.
Lemma min_normal_bpow : min_normal = bpow radix2 (-1022).
Proof. symmetry. exact (bpow_neg_pow 1022). Qed.
Lemma rel_normal : forall x, min_normal <= Rabs x -> exists e, Rabs e <= u /\ nearest x = x * (1 + e).
Proof. intros x H. destruct (relative_error_N_FLT_ex radix2 (-1074) 53 eq_refl (fun n => negb (Z.even n)) x) as (e & He & E).
  - rewrite min_normal_bpow in H. exact H.
  - exists e. split; [|exact E]. eapply Rle_trans; [exact He|]. rewrite <- u_ro_u. apply Req_le. reflexivity. Qed.
(** a value below the normal range is rounded with an absolute error of at most half the smallest double *)
Lemma nearest_any : forall x, exists e h, Rabs e <= u /\ Rabs h <= / 2 * bpow radix2 (-1074) /\ nearest x = x * (1 + e) + h.
Proof. intros x. destruct (error_N_FLT radix2 (-1074) 53 eq_refl (fun n => negb (Z.even n)) x) as (e & h & He & Hh & _ & E).
  exists e, h. split; [|split; [exact Hh | exact E]]. eapply Rle_trans; [exact He|]. rewrite <- u_ro_u. apply Req_le. reflexivity. Qed.
Lemma nearest_err : forall x, Rabs (nearest x - x) <= u * Rabs x \/ Rabs (nearest x - x) <= u * min_normal.
Proof. intros x. destruct (error_N_FLT radix2 (-1074) 53 eq_refl (fun n => negb (Z.even n)) x) as (e & h & He & Hh & Z & E).
  fold (nearest x) in E. assert (Hu : Rabs e <= u) by (rewrite <- u_ro_u; exact He). clear He.
  assert (Hm : Rabs h <= u * min_normal).
  { eapply Rle_trans; [exact Hh|]. rewrite u_bpow, min_normal_bpow, <- bpow_plus. change (/ 2) with (bpow radix2 (-1)). rewrite <- bpow_plus.
    apply bpow_le. lia. }
  destruct (Rmult_integral _ _ Z) as [-> | ->].
  - right. rewrite E. replace (x * (1 + 0) + h - x) with h by ring. exact Hm.
  - left. rewrite E. replace (x * (1 + e) + 0 - x) with (e * x) by ring. rewrite Rabs_mult. apply Rmult_le_compat_r; [apply Rabs_pos | exact Hu]. Qed.
Lemma nearest_err_any : forall x, Rabs (nearest x - x) <= u * Rabs x + u * min_normal.
Proof. intros x. assert (0 <= u * min_normal). { apply Rmult_le_pos; [left; apply u_pos|]. rewrite min_normal_bpow. apply bpow_ge_0. }
  assert (0 <= u * Rabs x). { apply Rmult_le_pos; [left; apply u_pos | apply Rabs_pos]. }
  destruct (nearest_err x); lra. Qed.
Lemma fmt_huge32 : fmt (3 / 2 * huge).
Proof. rewrite huge_bpow. replace (3 / 2 * bpow radix2 1023) with (F2R (Float radix2 3 1022)).
  - apply generic_format_FLT. exists (Float radix2 3 1022); [reflexivity | reflexivity | cbn; lia].
  - unfold F2R. cbn [Fnum Fexp]. replace (bpow radix2 1023) with (bpow radix2 1 * bpow radix2 1022) by (rewrite <- bpow_plus; reflexivity).
    change (bpow radix2 1) with 2. field. Qed.
Lemma huge_pos : 0 < huge.
Proof. rewrite huge_bpow. apply bpow_gt_0. Qed.
Lemma no_overflow32 : forall x, Rabs x <= 3 / 2 * huge -> Rabs (nearest x) < bpow radix2 1024.
Proof. intros x H. eapply Rle_lt_trans; [apply nearest_abs_le; [apply fmt_huge32 | exact H]|].
  replace (bpow radix2 1024) with (2 * huge). { pose proof huge_pos. lra. }
  rewrite huge_bpow. change 2 with (bpow radix2 1). rewrite <- bpow_plus. reflexivity. Qed.
(** a non-zero double is at least the smallest subnormal in magnitude *)
Lemma val_min : forall x : f64, val x <> 0 -> bpow radix2 (-1074) <= Rabs (val x).
Proof. intros x H. apply (abs_B2R_ge_emin 53 1024 x). destruct x as [s|s| |s m e Hb]; try reflexivity; exfalso; apply H; reflexivity. Qed.
(** an integer of at most 53 bits times a power of two in range is a double *)
Lemma lit_ok : forall m e, (Z.abs m < 2 ^ 53)%Z -> (-1074 <= e <= 971)%Z -> val (lit m e) = IZR m * bpow radix2 e /\ fin (lit m e).
Proof.
  intros m e Hm He. pose proof (binary_normalize_correct 53 1024 prec_pos prec_emax mode_NE m e false) as C. fold (lit m e) in C.
  cbv zeta in C. repeat match type of C with context [round ?b ?f ?r ?x] => change (round b f r x) with (nearest x) in C end.
  rewrite nearest_id in C.
  - rewrite Rlt_bool_true in C.
    + destruct C as (A & B & _). split; [exact A | exact B].
    + rewrite <- F2R_Zabs. apply Rlt_le_trans with (F2R (Float radix2 (2 ^ 53) e)).
      * apply F2R_lt. exact Hm.
      * change (2 ^ 53)%Z with (Zpower radix2 53). unfold F2R. cbn [Fnum Fexp]. rewrite IZR_Zpower by lia. rewrite <- bpow_plus. apply bpow_le. lia.
  - apply generic_format_FLT. exists (Float radix2 m e); [reflexivity | exact Hm | cbn; lia].
Qed.
Lemma lit_int : forall m, (Z.abs m < 2 ^ 53)%Z -> val (lit m 0) = IZR m /\ fin (lit m 0).
Proof. intros m H. destruct (lit_ok m 0 H ltac:(lia)) as (A & B). split; [|exact B]. rewrite A. cbn [bpow]. ring. Qed.
