(** The cost matrix of arg_closest in doubles (C218, C219). *)
From Coq Require Import ZArith Reals List Bool Lia Lra Permutation.
From Flocq Require Import Core BinarySingleNaN.
From Verif Require Import Prelude SpecReal SpecIEEE RealBase Floats FloatBase FloatOps P_Float P_Float3 P_Float6 P_Float7 P_Float9 P_Float15.
From Verif Require Import Floats9.
Import ListNotations.
Open Scope R_scope.

(** * Vocabulary *)
(** Not above zero: a finite number or minus infinity. *)
Definition nonpos (x : f64) : Prop := (fin x /\ val x <= 0) \/ x = B754_infinity true.
(** [x] is at most [y], both of them such numbers. *)
Definition at_most (x y : f64) : Prop := x = B754_infinity true \/ (fin x /\ fin y /\ val x <= val y).
(** math.expm1 on the numbers not above zero: between -1 and 0, never decreasing, 0 at 0. *)
Definition good_expm1 (expm1 : f64 -> f64) : Prop :=
  (forall x, nonpos x -> fin (expm1 x) /\ -1 <= val (expm1 x) <= 0) /\
  (forall x y, nonpos x -> nonpos y -> at_most x y -> val (expm1 x) <= val (expm1 y)) /\
  (forall x, fin x -> val x = 0 -> val (expm1 x) = 0).
(** A variance whose reciprocal does not overflow. *)
Definition spread (v : f64) : Prop := fin v /\ min_normal <= val v.
Definition nonneg (x : f64) : Prop := fin x /\ 0 <= val x.
Definition entry {A} (C : list (list A)) (i j : nat) (c : A) : Prop := exists row, nth_error C i = Some row /\ nth_error row j = Some c.

(** * Products *)
Definition big : R := bpow radix2 1024.
Lemma fmul_overflow x y : fin x -> fin y -> ~ Rabs (nearest (val x * val y)) < big -> fmul x y = B754_infinity (xorb (Bsign x) (Bsign y)).
Proof.
  intros Fx Fy H. pose proof (Bmult_correct 53 1024 prec_pos prec_emax mode_NE x y) as C.
  match type of C with context [Rlt_bool (Rabs (round ?b ?f ?r ?v)) ?w] => change (round b f r v) with (nearest (val x * val y)) in C end.
  fold big in C. rewrite Rlt_bool_false in C by (apply Rnot_lt_le; exact H). apply B2SF_inj. unfold fmul. rewrite C. reflexivity.
Qed.
Lemma inf_times s x : fin x -> val x <> 0 -> fmul (B754_infinity s) x = B754_infinity (xorb s (Bsign x)).
Proof. intros F N. destruct x as [s'|s'| |s' m e B]; try discriminate F; [exfalso; apply N; reflexivity | reflexivity]. Qed.

(** The magnitude of [a * x * x] as rounded twice. *)
Definition step1 (a x : R) : R := nearest (Rabs a * Rabs x).
Definition step2 (a x : R) : R := nearest (step1 a x * Rabs x).
Lemma step1_pos a x : 0 <= step1 a x.
Proof. unfold step1. rewrite <- nearest_0. apply nearest_le. apply Rmult_le_pos; apply Rabs_pos. Qed.
Lemma step1_mono a x y : Rabs x <= Rabs y -> step1 a x <= step1 a y.
Proof. intros H. apply nearest_le. apply Rmult_le_compat_l; [apply Rabs_pos | exact H]. Qed.
Lemma step2_mono a x y : Rabs x <= Rabs y -> step2 a x <= step2 a y.
Proof. intros H. apply nearest_le. apply Rmult_le_compat; [apply step1_pos | apply Rabs_pos | apply step1_mono; exact H | exact H]. Qed.
Lemma step2_pos a x : 0 <= step2 a x.
Proof. unfold step2. rewrite <- nearest_0. apply nearest_le. apply Rmult_le_pos; [apply step1_pos | apply Rabs_pos]. Qed.

Lemma quad a x : fin a -> val a <= 0 -> fin x -> let r := fmul (fmul a x) x in
  (step1 (val a) (val x) < big -> step2 (val a) (val x) < big -> fin r /\ val r = - step2 (val a) (val x)) /\
  (~ (step1 (val a) (val x) < big /\ step2 (val a) (val x) < big) -> r = B754_infinity true).
Proof.
  intros Fa Ha Fx r.
  assert (S1 : Rabs (nearest (val a * val x)) = step1 (val a) (val x)) by (rewrite <- nearest_abs, Rabs_mult; reflexivity).
  assert (SQ : nearest (nearest (val a * val x) * val x) = - step2 (val a) (val x)).
  { unfold step2, step1. rewrite (Rabs_left1 (val a)) by exact Ha. destruct (Rle_dec 0 (val x)) as [P|P].
    - rewrite (Rabs_pos_eq (val x)) by exact P. replace (- val a * val x) with (- (val a * val x)) by ring. rewrite nearest_opp.
      replace (- nearest (val a * val x) * val x) with (- (nearest (val a * val x) * val x)) by ring. rewrite nearest_opp. ring.
    - rewrite (Rabs_left1 (val x)) by lra. replace (- val a * - val x) with (val a * val x) by ring.
      replace (nearest (val a * val x) * - val x) with (- (nearest (val a * val x) * val x)) by ring. rewrite nearest_opp. ring. }
  split.
  - intros L1 L2. destruct (fmul_ok a x Fa Fx) as (V1 & F1 & _); [rewrite S1; exact L1|].
    destruct (fmul_ok (fmul a x) x F1 Fx) as (V2 & F2 & _).
    + rewrite V1, SQ, Rabs_Ropp, Rabs_pos_eq by apply step2_pos. exact L2.
    + split; [exact F2|]. unfold r. rewrite V2, V1. exact SQ.
  - intros N. assert (NX : val x <> 0).
    { intros E. apply N. unfold step2, step1. rewrite E, Rabs_R0, !Rmult_0_r, nearest_0. unfold big. split; apply bpow_gt_0. }
    assert (NA : val a <> 0).
    { intros E. apply N. unfold step2, step1. rewrite E, Rabs_R0, Rmult_0_l, nearest_0, Rmult_0_l, nearest_0. unfold big. split; apply bpow_gt_0. }
    assert (SA : Bsign a = true) by (apply sign_neg; [exact Fa | lra]).
    unfold r. destruct (Rlt_dec (step1 (val a) (val x)) big) as [L1|L1].
    + destruct (fmul_ok a x Fa Fx) as (V1 & F1 & G1); [rewrite S1; exact L1|]. rewrite fmul_overflow; [|exact F1 | exact Fx |].
      * unfold negative in G1. rewrite G1, SA. destruct (Bsign x); reflexivity.
      * rewrite V1, SQ, Rabs_Ropp, Rabs_pos_eq by apply step2_pos. intros L2. apply N. split; assumption.
    + rewrite (fmul_overflow a x); [|exact Fa | exact Fx | rewrite S1; exact L1]. rewrite inf_times by assumption. rewrite SA. destruct (Bsign x); reflexivity.
Qed.

Lemma quad_nonpos a x : fin a -> val a <= 0 -> fin x -> nonpos (fmul (fmul a x) x).
Proof.
  intros Fa Ha Fx. destruct (quad a x Fa Ha Fx) as (Q1 & Q2). destruct (Rlt_dec (step1 (val a) (val x)) big) as [L1|L1], (Rlt_dec (step2 (val a) (val x)) big) as [L2|L2];
    try (right; apply Q2; tauto). destruct (Q1 L1 L2) as (F & V). left. split; [exact F|]. rewrite V. pose proof (step2_pos (val a) (val x)). lra.
Qed.
Lemma quad_mono a x y : fin a -> val a <= 0 -> fin x -> fin y -> Rabs (val x) <= Rabs (val y) -> at_most (fmul (fmul a y) y) (fmul (fmul a x) x).
Proof.
  intros Fa Ha Fx Fy H. destruct (quad a x Fa Ha Fx) as (X1 & _). destruct (quad a y Fa Ha Fy) as (Y1 & Y2).
  pose proof (step1_mono (val a) _ _ H). pose proof (step2_mono (val a) _ _ H).
  destruct (Rlt_dec (step1 (val a) (val y)) big) as [L1|L1], (Rlt_dec (step2 (val a) (val y)) big) as [L2|L2]; try (left; apply Y2; tauto).
  right. destruct (X1 ltac:(lra) ltac:(lra)) as (FX & VX). destruct (Y1 L1 L2) as (FY & VY). split; [exact FY|]. split; [exact FX|]. rewrite VX, VY. lra.
Qed.
Lemma quad_zero a x : fin a -> val a <= 0 -> fin x -> val x = 0 -> fin (fmul (fmul a x) x) /\ val (fmul (fmul a x) x) = 0.
Proof.
  intros Fa Ha Fx E. destruct (quad a x Fa Ha Fx) as (Q1 & _). assert (Z1 : step1 (val a) (val x) = 0) by (unfold step1; rewrite E, Rabs_R0, Rmult_0_r; apply nearest_0).
  assert (Z2 : step2 (val a) (val x) = 0) by (unfold step2; rewrite E, Rabs_R0, Rmult_0_r; apply nearest_0). rewrite Z1, Z2 in Q1.
  destruct Q1 as (F & V); [apply bpow_gt_0 | apply bpow_gt_0 |]. split; [exact F | rewrite V; ring].
Qed.

Lemma recip_ok v : spread v -> fin (fdiv fone v) /\ 0 <= val (fdiv fone v) <= 2 ^ 1022.
Proof.
  intros (F & H). destruct (lit_int 1 ltac:(lia)) as (V1 & F1). fold fone in V1, F1. pose proof mn_pos as MN.
  assert (B : 0 < / val v <= 2 ^ 1022).
  { split; [apply Rinv_0_lt_compat; lra|]. unfold min_normal in H. rewrite <- (Rinv_inv (2 ^ 1022)). apply Rinv_le_contravar; [apply Rinv_0_lt_compat, pow_lt; lra | exact H]. }
  assert (E : val fone / val v = / val v) by (rewrite V1; unfold Rdiv; ring).
  assert (P : 2 ^ 1022 <= SpecIEEE.huge) by (unfold SpecIEEE.huge; apply Rle_pow; [lra | lia]).
  assert (G : fmt (2 ^ 1022)). { replace (2 ^ 1022) with (bpow radix2 1022) by (rewrite <- (IZR_Zpower radix2) by lia; rewrite pow_IZR; reflexivity). apply generic_format_bpow. unfold FLT_exp. lia. }
  destruct (fdiv_ok fone v F1 F) as (V & FD & _); [lra | apply no_overflow; rewrite E, Rabs_pos_eq by lra; lra |]. split; [exact FD|]. rewrite V, E. split.
  - rewrite <- nearest_0. apply nearest_le. lra.
  - apply nearest_le_fmt; [exact G | apply B].
Qed.
Lemma half_ok r : fin r -> 0 <= val r <= 2 ^ 1022 -> fin (fmul (lit (-1) (-1)) r) /\ val (fmul (lit (-1) (-1)) r) <= 0.
Proof.
  intros F H. destruct (lit_ok (-1) (-1) ltac:(lia) ltac:(lia)) as (V & FL). change (bpow radix2 (-1)) with (/ 2) in V.
  assert (P : 2 ^ 1022 <= SpecIEEE.huge) by (unfold SpecIEEE.huge; apply Rle_pow; [lra | lia]).
  destruct (fmul_ok (lit (-1) (-1)) r FL F) as (VM & FM & _); [apply no_overflow; rewrite V; apply Rabs_le; lra|]. split; [exact FM|].
  rewrite VM, <- nearest_0. apply nearest_le. rewrite V. lra.
Qed.

(** * One entry *)
Section Entry.
  Context (expm1 : f64 -> f64) (G : good_expm1 expm1) (vd vp : f64) (Hd : spread vd) (Hp : spread vp).
  Let cost := f_cost expm1 (fdiv fone vd) (fdiv fone vp).
  Lemma parts : forall v d, spread v -> fin d -> fin (expm1 (f_exponent (fdiv fone v) d)) /\ -1 <= val (expm1 (f_exponent (fdiv fone v) d)) <= 0.
  Proof. intros v d H F. apply G. destruct (recip_ok v H) as (R1 & R2). destruct (half_ok _ R1 R2) as (A1 & A2). apply quad_nonpos; assumption. Qed.
  Lemma sum_ok : forall a b, fin a -> fin b -> -1 <= val a <= 0 -> -1 <= val b <= 0 -> fin (fneg (fadd a b)) /\ val (fneg (fadd a b)) = - nearest (val a + val b) /\ 0 <= val (fneg (fadd a b)) <= 2.
  Proof.
    intros a b Fa Fb A B. assert (P : 2 <= SpecIEEE.huge) by (unfold SpecIEEE.huge; rewrite <- (pow_1 2) at 1; apply Rle_pow; [lra | lia]).
    destruct (fadd_ok a b Fa Fb) as (V & F); [apply no_overflow; apply Rabs_le; lra|]. split; [apply fneg_fin; exact F|]. rewrite fneg_ok, V. split; [reflexivity|].
    assert (N0 : nearest (val a + val b) <= 0) by (rewrite <- nearest_0; apply nearest_le; lra).
    assert (N2 : -2 <= nearest (val a + val b)). { destruct (lit_int (-2) ltac:(lia)) as (W & _). change (-2) with (IZR (-2)). rewrite <- W. apply nearest_ge_fmt; [apply val_fmt | rewrite W; lra]. }
    lra.
  Qed.
  Lemma cost_range : forall d dpt, fin d -> fin dpt -> fin (cost d dpt) /\ 0 <= val (cost d dpt) <= 2.
  Proof. intros d dpt Fd Fp. destruct (parts vd d Hd Fd) as (F1 & B1). destruct (parts vp dpt Hp Fp) as (F2 & B2). destruct (sum_ok _ _ F1 F2 B1 B2) as (F & _ & B). split; [exact F | exact B]. Qed.
  Lemma cost_mono : forall d dpt d' dpt', fin d -> fin dpt -> fin d' -> fin dpt' -> Rabs (val d) <= Rabs (val d') -> Rabs (val dpt) <= Rabs (val dpt') ->
    val (cost d dpt) <= val (cost d' dpt').
  Proof.
    intros d dpt d' dpt' F1 F2 F1' F2' L1 L2. unfold cost, f_cost. cbv zeta.
    assert (M : forall v x y, spread v -> fin x -> fin y -> Rabs (val x) <= Rabs (val y) -> val (expm1 (f_exponent (fdiv fone v) y)) <= val (expm1 (f_exponent (fdiv fone v) x))).
    { intros v x y H Fx Fy L. destruct (recip_ok v H) as (R1 & R2). destruct (half_ok _ R1 R2) as (A1 & A2). apply G; [apply quad_nonpos; assumption | apply quad_nonpos; assumption | apply quad_mono; assumption]. }
    destruct (parts vd d Hd F1) as (E1 & B1). destruct (parts vp dpt Hp F2) as (E2 & B2). destruct (parts vd d' Hd F1') as (E1' & B1'). destruct (parts vp dpt' Hp F2') as (E2' & B2').
    destruct (sum_ok _ _ E1 E2 B1 B2) as (_ & V & _). destruct (sum_ok _ _ E1' E2' B1' B2') as (_ & V' & _). rewrite V, V'.
    apply Ropp_le_contravar. apply nearest_le. pose proof (M vd d d' Hd F1 F1' L1). pose proof (M vp dpt dpt' Hp F2 F2' L2). lra.
  Qed.
  Lemma cost_zero : forall d dpt, fin d -> fin dpt -> val d = 0 -> val dpt = 0 -> val (cost d dpt) = 0.
  Proof.
    intros d dpt F1 F2 Z1 Z2. unfold cost, f_cost. cbv zeta.
    assert (M : forall v x, spread v -> fin x -> val x = 0 -> val (expm1 (f_exponent (fdiv fone v) x)) = 0).
    { intros v x H Fx Z. destruct (recip_ok v H) as (R1 & R2). destruct (half_ok _ R1 R2) as (A1 & A2). destruct (quad_zero _ x A1 A2 Fx Z). apply G; assumption. }
    destruct (parts vd d Hd F1) as (E1 & B1). destruct (parts vp dpt Hp F2) as (E2 & B2). destruct (sum_ok _ _ E1 E2 B1 B2) as (_ & V & _). rewrite V, (M vd d Hd F1 Z1), (M vp dpt Hp F2 Z2), Rplus_0_r, nearest_0. ring.
  Qed.
End Entry.

(** * The matrix *)

(** The pairs [i], [j] at distance [d] and difference [p] of transverse momenta, as the matrix sees them. *)
Definition pair_of (hypot atan2 : f64 -> f64 -> f64) (rap_1 rap_2 : list f64) (pol_1 pol_2 : list fcomplex) (i j : nat) (d dpt : f64) : Prop :=
  exists r1 r2 p1 p2, nth_error rap_1 i = Some r1 /\ nth_error rap_2 j = Some r2 /\ nth_error pol_1 i = Some p1 /\ nth_error pol_2 j = Some p2 /\
    d = f_delta hypot atan2 r1 r2 p1 p2 /\ dpt = fsub (hypot (fst p1) (snd p1)) (hypot (fst p2) (snd p2)).

Lemma spread_not_zero v : spread v -> feq v fzero = false.
Proof.
  intros (F & H). pose proof mn_pos. unfold feq. destruct (Beqb v fzero) eqn:E; [|reflexivity]. exfalso.
  assert (X : val v = 0). { unfold Beqb, SpecFloat.SFeqb in E. fold (Bcompare v fzero) in E. rewrite (Bcompare_correct 53 1024 v fzero F eq_refl) in E. change (B2R v) with (val v) in E. change (B2R fzero) with 0 in E. destruct (Rcompare_spec (val v) 0); try discriminate; assumption. }
  lra.
Qed.

Lemma nth_combine {A B} (l : list A) (r : list B) i x y : nth_error l i = Some x -> nth_error r i = Some y -> nth_error (combine l r) i = Some (x, y).
Proof. revert r i. induction l as [|a l IH]; intros [|b r] [|i] H1 H2; cbn in *; try discriminate; [congruence | apply IH; assumption]. Qed.
Lemma nth_combine_inv {A B} (l : list A) (r : list B) i e : nth_error (combine l r) i = Some e -> nth_error l i = Some (fst e) /\ nth_error r i = Some (snd e).
Proof. revert r i. induction l as [|a l IH]; intros [|b r] [|i] H; cbn in *; try discriminate; [injection H as <-; auto | apply IH; exact H]. Qed.
Lemma Forall2_nth {A B} (P : A -> B -> Prop) l r i y : Forall2 P l r -> nth_error r i = Some y -> exists x, nth_error l i = Some x /\ P x y.
Proof. intros H. revert i. induction H as [|a b l r H _ IH]; intros [|i] E; cbn in *; try discriminate; [injection E as <-; eauto | apply IH; exact E]. Qed.


Definition spreads (hypot atan2 : f64 -> f64 -> f64) (rap_1 rap_2 : list f64) (pol_1 pol_2 : list fcomplex) : Prop :=
  (forall v, f_var (map (f_abs hypot) pol_2) v -> spread v) /\
  (forall row v, In row (f_distances hypot atan2 rap_1 rap_2 pol_1 pol_2) -> f_var row v -> spread v).

Lemma matrix_entries : forall hypot atan2 expm1 rap_1 rap_2 pol_1 pol_2 C,
  spreads hypot atan2 rap_1 rap_2 pol_1 pol_2 -> f_assignment_cost hypot atan2 expm1 rap_1 rap_2 pol_1 pol_2 (Ok C) ->
  exists vp, spread vp /\ forall i row, nth_error C i = Some row -> exists vd, spread vd /\
    forall j c, nth_error row j = Some c -> exists d dpt, pair_of hypot atan2 rap_1 rap_2 pol_1 pol_2 i j d dpt /\
      c = f_cost expm1 (fdiv fone vd) (fdiv fone vp) d dpt.
Proof.
  intros hypot atan2 expm1 rap_1 rap_2 pol_1 pol_2 C (SP & SD) (vp & HV & H). pose proof (SP _ HV) as SV. rewrite (spread_not_zero _ SV) in H.
  destruct H as (C' & E & F). injection E as <-. exists vp. split; [exact SV|]. intros i row Hr.
  destruct (Forall2_nth _ _ _ _ _ F Hr) as ((drow & p1) & He & (vd & Hvd & Hl & Hc)). apply nth_combine_inv in He as (He1 & He2). cbn [fst snd] in *.
  pose proof (SD _ _ (nth_error_In _ _ He1) Hvd) as SVD. exists vd. split; [exact SVD|]. specialize (Hc (spread_not_zero _ SVD)).
  intros j c Hj. rewrite Hc in Hj. rewrite nth_error_map in Hj. destruct (nth_error (combine drow _) j) as [(d & q)|] eqn:Ej; [|discriminate]. cbn in Hj. injection Hj as <-.
  apply nth_combine_inv in Ej as (Ed & Eq). cbn [fst snd] in *. rewrite nth_error_map in Eq. destruct (nth_error pol_2 j) as [p2|] eqn:Ep2; [|discriminate]. cbn in Eq. injection Eq as <-.
  unfold f_distances in He1. rewrite nth_error_map in He1. destruct (nth_error (combine rap_1 pol_1) i) as [(r1 & p1')|] eqn:E1; [|discriminate]. cbn in He1. injection He1 as <-.
  apply nth_combine_inv in E1 as (E1 & E1'). cbn [fst snd] in *. rewrite He2 in E1'. injection E1' as <-.
  rewrite nth_error_map in Ed. destruct (nth_error (combine rap_2 pol_2) j) as [(r2 & p2')|] eqn:E2; [|discriminate]. cbn in Ed. injection Ed as <-.
  apply nth_combine_inv in E2 as (E2 & E2'). cbn [fst snd] in *. rewrite Ep2 in E2'. injection E2' as <-.
  do 2 eexists. split; [|reflexivity]. exists r1, r2, p1, p2. repeat (split; [assumption|]). split; reflexivity.
Qed.

(** * C219 *)
(** When the distances and transverse momenta are finite and no variance is (nearly) zero, every cost is a number between 0 and 2, so scipy
    accepts the matrix. *)
Theorem C219_range : forall hypot atan2 expm1 rap_1 rap_2 pol_1 pol_2 C i j c, good_expm1 expm1 ->
  (forall i j d dpt, pair_of hypot atan2 rap_1 rap_2 pol_1 pol_2 i j d dpt -> fin d /\ fin dpt) ->
  spreads hypot atan2 rap_1 rap_2 pol_1 pol_2 -> f_assignment_cost hypot atan2 expm1 rap_1 rap_2 pol_1 pol_2 (Ok C) ->
  entry C i j c -> fin c /\ 0 <= val c <= 2.
Proof.
  intros hypot atan2 expm1 rap_1 rap_2 pol_1 pol_2 C i j c G HF HS HC (row & Hr & Hj). destruct (matrix_entries _ _ _ _ _ _ _ _ HS HC) as (vp & SV & M).
  destruct (M i row Hr) as (vd & SD & N). destruct (N j c Hj) as (d & dpt & HP & ->). destruct (HF _ _ _ _ HP). apply cost_range; assumption.
Qed.
(** For one object of interest, a candidate that is no further away in the plane and no further away in transverse momentum never costs more,
    whatever the rounding. *)
Theorem C219_order : forall hypot atan2 expm1 rap_1 rap_2 pol_1 pol_2 C i j j' c c' d dpt d' dpt', good_expm1 expm1 ->
  (forall i j d dpt, pair_of hypot atan2 rap_1 rap_2 pol_1 pol_2 i j d dpt -> fin d /\ fin dpt) ->
  spreads hypot atan2 rap_1 rap_2 pol_1 pol_2 -> f_assignment_cost hypot atan2 expm1 rap_1 rap_2 pol_1 pol_2 (Ok C) ->
  entry C i j c -> entry C i j' c' -> pair_of hypot atan2 rap_1 rap_2 pol_1 pol_2 i j d dpt -> pair_of hypot atan2 rap_1 rap_2 pol_1 pol_2 i j' d' dpt' ->
  Rabs (val d) <= Rabs (val d') -> Rabs (val dpt) <= Rabs (val dpt') -> val c <= val c'.
Proof.
  intros hypot atan2 expm1 rap_1 rap_2 pol_1 pol_2 C i j j' c c' d dpt d' dpt' G HF HS HC (row & Hr & Hj) (row' & Hr' & Hj') HP HP' L1 L2.
  rewrite Hr in Hr'. injection Hr' as <-. destruct (matrix_entries _ _ _ _ _ _ _ _ HS HC) as (vp & SV & M).
  destruct (M i row Hr) as (vd & SD & N). destruct (N j c Hj) as (e & ept & HQ & ->). destruct (N j' c' Hj') as (e' & ept' & HQ' & ->).
  assert (U : forall i j a b a' b', pair_of hypot atan2 rap_1 rap_2 pol_1 pol_2 i j a b -> pair_of hypot atan2 rap_1 rap_2 pol_1 pol_2 i j a' b' -> a = a' /\ b = b').
  { intros i0 j0 a b a' b' (r1 & r2 & p1 & p2 & A1 & A2 & A3 & A4 & -> & ->) (r1' & r2' & p1' & p2' & B1 & B2 & B3 & B4 & -> & ->).
    rewrite A1 in B1. rewrite A2 in B2. rewrite A3 in B3. rewrite A4 in B4. injection B1 as <-. injection B2 as <-. injection B3 as <-. injection B4 as <-. auto. }
  destruct (U _ _ _ _ _ _ HP HQ) as (<- & <-). destruct (U _ _ _ _ _ _ HP' HQ') as (<- & <-). destruct (HF _ _ _ _ HP). destruct (HF _ _ _ _ HP'). apply cost_mono; assumption.
Qed.
(** A candidate at distance 0 with the same transverse momentum costs nothing. *)
Theorem C219_zero : forall hypot atan2 expm1 rap_1 rap_2 pol_1 pol_2 C i j c d dpt, good_expm1 expm1 ->
  spreads hypot atan2 rap_1 rap_2 pol_1 pol_2 -> f_assignment_cost hypot atan2 expm1 rap_1 rap_2 pol_1 pol_2 (Ok C) ->
  entry C i j c -> pair_of hypot atan2 rap_1 rap_2 pol_1 pol_2 i j d dpt -> fin d -> fin dpt -> val d = 0 -> val dpt = 0 -> val c = 0.
Proof.
  intros hypot atan2 expm1 rap_1 rap_2 pol_1 pol_2 C i j c d dpt G HS HC (row & Hr & Hj) HP F1 F2 Z1 Z2. destruct (matrix_entries _ _ _ _ _ _ _ _ HS HC) as (vp & SV & M).
  destruct (M i row Hr) as (vd & SD & N). destruct (N j c Hj) as (e & ept & HQ & ->).
  destruct HP as (r1 & r2 & p1 & p2 & A1 & A2 & A3 & A4 & E1 & E2). destruct HQ as (r1' & r2' & p1' & p2' & B1 & B2 & B3 & B4 & E1' & E2').
  rewrite A1 in B1. rewrite A2 in B2. rewrite A3 in B3. rewrite A4 in B4. injection B1 as <-. injection B2 as <-. injection B3 as <-. injection B4 as <-. subst e ept. rewrite <- E1, <- E2. apply cost_zero; assumption.
Qed.

(** * C218 *)
Lemma leaves_some t : exists x l, leaves t = x :: l.
Proof. induction t as [x|l (x & r & E) r' _]; cbn; [eauto|]. rewrite E. cbn. eauto. Qed.
Lemma one_sum t a : leaves t = [a] -> f_sum t = a.
Proof.
  destruct t as [x|l r]; cbn; [congruence|]. intros E. destruct (leaves_some l) as (y & l' & El), (leaves_some r) as (z & r' & Er). rewrite El, Er in E. cbn in E.
  destruct l'; discriminate.
Qed.
Lemma two_sum t a b : leaves t = [a; b] -> f_sum t = fadd a b.
Proof.
  destruct t as [x|l r]; cbn; [discriminate|]. intros E. destruct (leaves_some l) as (y & l' & El), (leaves_some r) as (z & r' & Er). rewrite El, Er in E. cbn in E.
  destruct l' as [|w l']; cbn in E; [|destruct l'; discriminate]. injection E as -> -> ->. rewrite (one_sum l a El), (one_sum r b Er). reflexivity.
Qed.
Lemma three_sum t a : leaves t = [a; a; a] -> f_sum t = fadd (fadd a a) a.
Proof.
  destruct t as [x|l r]; cbn; [discriminate|]. intros E. destruct (leaves_some l) as (y & l' & El), (leaves_some r) as (z & r' & Er). rewrite El, Er in E. cbn in E.
  destruct l' as [|w l']; cbn in E.
  - injection E as -> -> ->. rewrite (one_sum l a El), (two_sum r a a Er). apply fadd_comm.
  - destruct l' as [|w' l']; cbn in E; [|destruct l'; discriminate]. injection E as -> -> -> ->. rewrite (two_sum l a a El), (one_sum r a Er). reflexivity.
Qed.

(** 0.1 *)
Definition tenth : f64 := lit 7205759403792794 (-56).
Lemma three_var v : f_var [tenth; tenth; tenth] v -> feq v fzero = false.
Proof.
  intros (t1 & t2 & P1 & P2 & ->). apply (Permutation_repeat tenth 3) in P1. unfold f_mean in P2 at 1. set (m := f_mean t1 3) in *.
  assert (Em : m = fdiv (fadd (fadd tenth tenth) tenth) (lit 3 0)) by (unfold m, f_mean; rewrite (three_sum t1 tenth P1); reflexivity).
  cbn [map length] in P2. change (f_mean t1 (length [tenth; tenth; tenth])) with m in P2. set (d := fmul (fsub tenth m) (fsub tenth m)) in *.
  apply (Permutation_repeat d 3) in P2. unfold f_mean. rewrite (three_sum t2 d P2). unfold d. rewrite Em. vm_compute. reflexivity.
Qed.

(** Three candidates of equal transverse momentum 0.1: the mean is not 0.1, so the variance is not zero and nothing is raised. *)
Theorem C218_equal_pt_refuted : exists pt, fin pt /\ 0 < val pt /\
  forall hypot atan2 expm1 rap_1 rap_2 pol_1 pol_2 out, length pol_2 = 3%nat -> (forall p, In p pol_2 -> hypot (fst p) (snd p) = pt) ->
  f_assignment_cost hypot atan2 expm1 rap_1 rap_2 pol_1 pol_2 out -> exists C, out = Ok C.
Proof.
  exists tenth. split; [reflexivity|]. split.
  { destruct (lit_ok 7205759403792794 (-56) ltac:(lia) ltac:(lia)) as (V & _). unfold tenth. rewrite V. apply Rmult_lt_0_compat; [apply IZR_lt; reflexivity | apply bpow_gt_0]. }
  intros hypot atan2 expm1 rap_1 rap_2 pol_1 pol_2 out L H (vp & HV & HO).
  destruct pol_2 as [|a [|b [|c [|]]]]; try discriminate L. cbn [map] in HV. unfold f_abs in HV.
  rewrite (H a), (H b), (H c) in HV by (cbn; tauto). rewrite (three_var _ HV) in HO. destruct HO as (C & -> & _). eauto.
Qed.

Lemma zero_sq x m : fin x -> m = x -> fin (fmul (fsub x m) (fsub x m)) /\ val (fmul (fsub x m) (fsub x m)) = 0.
Proof.
  intros F ->. destruct (fsub_ok x x F F) as (V & G & _); [rewrite Rminus_diag_eq by reflexivity; rewrite nearest_0, Rabs_R0; apply bpow_gt_0|].
  rewrite Rminus_diag_eq, nearest_0 in V by reflexivity.
  destruct (fmul_ok _ _ G G) as (V2 & G2 & _); [rewrite V, Rmult_0_l, nearest_0, Rabs_R0; apply bpow_gt_0|]. split; [exact G2|]. rewrite V2, V, Rmult_0_l. apply nearest_0.
Qed.
Lemma val_eq x y : fin x -> fin y -> val x = val y -> val x <> 0 -> x = y.
Proof. intros Fx Fy E N. apply B2R_inj; [destruct x as [| | |]; try reflexivity; try discriminate Fx; exfalso; apply N; reflexivity | | exact E].
  destruct y as [| | |]; try reflexivity; try discriminate Fy. exfalso. apply N. rewrite E. reflexivity. Qed.
Lemma small_var pt v xs : fin pt -> Rabs (val pt) <= 2 ^ 1000 -> xs = [pt] \/ xs = [pt; pt] -> f_var xs v -> feq v fzero = true.
Proof.
  intros F B HX (t1 & t2 & P1 & P2 & ->).
  assert (P : 2 * 2 ^ 1000 <= SpecIEEE.huge). { unfold SpecIEEE.huge. replace 1023%nat with (1 + (22 + 1000))%nat by reflexivity. rewrite pow_add, pow_1. apply Rmult_le_compat_l; [lra|]. apply Rle_pow; [lra | lia]. }
  assert (FEQ : forall x, fin x -> val x = 0 -> feq x fzero = true).
  { intros x Fx Ex. unfold feq, Beqb, SpecFloat.SFeqb. fold (Bcompare x fzero). rewrite (Bcompare_correct 53 1024 x fzero Fx eq_refl). change (B2R x) with (val x). change (B2R fzero) with 0. rewrite Ex, Rcompare_Eq by reflexivity. reflexivity. }
  assert (DIV : forall x n, (n = 1 \/ n = 2)%Z -> fin x -> Rabs (val x / IZR n) <= SpecIEEE.huge -> fin (fdiv x (lit n 0)) /\ val (fdiv x (lit n 0)) = nearest (val x / IZR n)).
  { intros x n N Fx Bx. destruct (lit_int n) as (V & G); [destruct N; subst; lia|]. assert (IZR n <> 0) by (destruct N; subst; lra).
    destruct (fdiv_ok x (lit n 0) Fx G) as (W & FW & _); [rewrite V; assumption | apply no_overflow; rewrite V; exact Bx |]. rewrite V in W. auto. }
  assert (SQ : forall m, fin m -> val m = val pt -> fin (fmul (fsub pt m) (fsub pt m)) /\ val (fmul (fsub pt m) (fsub pt m)) = 0).
  { intros m Fm Em. destruct (fsub_ok pt m F Fm) as (V & G & _); [rewrite Em, Rminus_diag_eq by reflexivity; rewrite nearest_0, Rabs_R0; apply bpow_gt_0|].
    rewrite Em, Rminus_diag_eq, nearest_0 in V by reflexivity.
    destruct (fmul_ok _ _ G G) as (V2 & G2 & _); [rewrite V, Rmult_0_l, nearest_0, Rabs_R0; apply bpow_gt_0|]. split; [exact G2|]. rewrite V2, V, Rmult_0_l. apply nearest_0. }
  assert (H0 : Rabs (0 / 1) <= SpecIEEE.huge /\ Rabs (0 / 2) <= SpecIEEE.huge).
  { unfold Rdiv. rewrite !Rmult_0_l, Rabs_R0. assert (0 < 2 ^ 1000) by (apply pow_lt; lra). lra. }
  destruct HX as [->| ->]; cbn [length map] in *.
  - apply (Permutation_repeat pt 1) in P1. unfold f_mean in P2. rewrite (one_sum t1 pt P1) in P2.
    destruct (DIV pt 1%Z ltac:(lia) F) as (FM & VM); [replace (val pt / 1) with (val pt) by field; assert (0 < 2 ^ 1000) by (apply pow_lt; lra); lra|].
    replace (val pt / 1) with (val pt) in VM by field. rewrite nearest_id in VM by apply val_fmt.
    destruct (SQ _ FM VM) as (FS & VS). change (Z.of_nat 1) with 1%Z in P2. set (d := fmul _ _) in *. apply (Permutation_repeat d 1) in P2.
    unfold f_mean. rewrite (one_sum t2 d P2). destruct (DIV d 1%Z ltac:(lia) FS) as (FD & VD); [rewrite VS; apply H0|].
    apply FEQ; [exact FD|]. change (Z.of_nat 1) with 1%Z. rewrite VD, VS. unfold Rdiv. rewrite Rmult_0_l. apply nearest_0.
  - apply (Permutation_repeat pt 2) in P1. unfold f_mean in P2. rewrite (two_sum t1 pt pt P1) in P2.
    assert (D2 : fmt (val pt + val pt)).
    { replace (val pt + val pt) with (val pt * bpow radix2 1) by (change (bpow radix2 1) with 2; ring). apply generic_format_FLT.
      pose proof (val_fmt pt) as G. apply FLT_format_generic in G; [|reflexivity]. destruct G as [f E1 E2 E3].
      exists (Float radix2 (Fnum f) (Fexp f + 1)); [rewrite E1; unfold F2R; cbn [Fnum Fexp]; rewrite bpow_plus; ring | exact E2 | cbn [Fexp]; lia]. }
    destruct (fadd_ok pt pt F F) as (VA & FA).
    { apply no_overflow. eapply Rle_trans; [apply Rabs_triang|]. lra. }
    rewrite nearest_id in VA by exact D2.
    destruct (DIV (fadd pt pt) 2%Z ltac:(lia) FA) as (FM & VM); [rewrite VA; replace ((val pt + val pt) / 2) with (val pt) by field; assert (0 < 2 ^ 1000) by (apply pow_lt; lra); lra|].
    rewrite VA in VM. replace ((val pt + val pt) / 2) with (val pt) in VM by field. rewrite nearest_id in VM by apply val_fmt.
    destruct (SQ _ FM VM) as (FS & VS). change (Z.of_nat 2) with 2%Z in P2. set (d := fmul _ _) in *. apply (Permutation_repeat d 2) in P2.
    unfold f_mean. rewrite (two_sum t2 d d P2). destruct (fadd_ok d d FS FS) as (VB & FB); [rewrite VS, Rplus_0_r, nearest_0, Rabs_R0; apply bpow_gt_0|].
    rewrite VS, Rplus_0_r, nearest_0 in VB. destruct (DIV (fadd d d) 2%Z ltac:(lia) FB) as (FD & VD); [rewrite VB; apply H0|].
    apply FEQ; [exact FD|]. change (Z.of_nat 2) with 2%Z. rewrite VD, VB. unfold Rdiv. rewrite Rmult_0_l. apply nearest_0.
Qed.

(** One candidate, or two of equal transverse momentum: ZeroDivisionError, in doubles as in exact arithmetic. *)
Theorem C218_two_partial : forall hypot atan2 expm1 rap_1 rap_2 pol_1 pol_2 out pt, fin pt -> Rabs (val pt) <= 2 ^ 1000 ->
  (length pol_2 = 1 \/ length pol_2 = 2)%nat -> (forall p, In p pol_2 -> hypot (fst p) (snd p) = pt) ->
  f_assignment_cost hypot atan2 expm1 rap_1 rap_2 pol_1 pol_2 out -> out = Err ZeroDivisionError.
Proof.
  intros hypot atan2 expm1 rap_1 rap_2 pol_1 pol_2 out pt F B L H (vp & HV & HO).
  assert (Z : feq vp fzero = true).
  { apply (small_var pt vp (map (f_abs hypot) pol_2) F B); [|exact HV]. unfold f_abs. destruct pol_2 as [|a [|b [|]]]; cbn in L; try lia; cbn [map]; [left | right]; rewrite !H by (cbn; tauto); reflexivity. }
  rewrite Z in HO. exact HO.
Qed.

(** The kernel gives some result whenever there is a candidate. *)
Lemma var_exists xs : xs <> [] -> exists v, f_var xs v.
Proof.
  intros N. assert (T : forall l : list f64, l <> [] -> exists t, leaves t = l).
  { induction l as [|x l IH]; [congruence|]. intros _. destruct l as [|y l]; [exists (Leaf x); reflexivity|]. destruct IH as (t & E); [discriminate|]. exists (Node (Leaf x) t). cbn. rewrite E. reflexivity. }
  destruct (T xs N) as (t1 & E1). set (m := f_mean t1 (length xs)).
  destruct (T (map (fun x => let val := fsub x m in fmul val val) xs)) as (t2 & E2); [destruct xs; [congruence | discriminate]|].
  exists (f_mean t2 (length xs)), t1, t2. rewrite E1, E2. split; [apply Permutation_refl|]. split; [apply Permutation_refl | reflexivity].
Qed.
Theorem C218_result_exists : forall hypot atan2 expm1 rap_1 rap_2 pol_1 pol_2, length rap_2 = length pol_2 -> pol_2 <> [] ->
  exists out, f_assignment_cost hypot atan2 expm1 rap_1 rap_2 pol_1 pol_2 out.
Proof.
  intros hypot atan2 expm1 rap_1 rap_2 pol_1 pol_2 L N. destruct (var_exists (map (f_abs hypot) pol_2)) as (vp & HV); [destruct pol_2; [congruence | discriminate]|].
  destruct (feq vp fzero) eqn:Z; [exists (Err ZeroDivisionError), vp; split; [exact HV|]; rewrite Z; reflexivity|].
  assert (R : forall l : list (list f64 * fcomplex), (forall e, In e l -> length (fst e) = length pol_2) ->
    exists C, Forall2 (fun e c => f_cost_row hypot expm1 (fdiv fone vp) (fst e) (snd e) (map (f_abs hypot) pol_2) c) l C).
  { induction l as [|e l IH]; intros H; [exists []; constructor|]. destruct IH as (C & HC); [intros; apply H; right; assumption|].
    assert (LE : length (fst e) = length pol_2) by (apply H; left; reflexivity).
    destruct (var_exists (fst e)) as (vd & HD); [intros E; rewrite E in LE; destruct pol_2; [congruence | discriminate]|].
    eexists (map _ (combine (fst e) (map (f_abs hypot) pol_2)) :: C). constructor; [|exact HC]. exists vd. split; [exact HD|]. split; [|intros _; reflexivity].
    rewrite map_length, combine_length, map_length. lia. }
  destruct (R (combine (f_distances hypot atan2 rap_1 rap_2 pol_1 pol_2) pol_1)) as (C & HC).
  - intros (row & p) I. apply in_combine_l in I. unfold f_distances in I. apply in_map_iff in I as (a & <- & _). cbn [fst]. rewrite map_length, combine_length. lia.
  - exists (Ok C), vp. split; [exact HV|]. rewrite Z. exists C. split; [reflexivity | exact HC].
Qed.

(** * A case: one object, two candidates, with a crude hypot and a correctly rounded expm1. *)
Definition ref_expm1 (x : f64) : f64 := match x with B754_infinity true => lit (-1) 0 | _ => of_R (exp (val x) - 1) end.
Lemma ref_expm1_good : good_expm1 ref_expm1.
Proof.
  destruct (lit_int (-1) ltac:(lia)) as (V1 & F1). assert (P : 2 <= SpecIEEE.huge) by (unfold SpecIEEE.huge; rewrite <- (pow_1 2) at 1; apply Rle_pow; [lra | lia]).
  assert (FI : forall x, fin x -> val x <= 0 -> fin (ref_expm1 x) /\ val (ref_expm1 x) = nearest (exp (val x) - 1) /\ -1 <= val (ref_expm1 x) <= 0).
  { intros x F H. assert (E : ref_expm1 x = of_R (exp (val x) - 1)) by (destruct x as [|[]| |]; try reflexivity; discriminate F). rewrite E.
    assert (B : 0 < exp (val x) <= 1) by (split; [apply exp_pos | rewrite <- exp_0; destruct H as [H| ->]; [left; apply exp_increasing; exact H | right; reflexivity]]).
    destruct (of_R_ok (exp (val x) - 1)) as (F2 & V2); [apply no_overflow; apply Rabs_le; lra|]. split; [exact F2|]. split; [exact V2|]. rewrite V2. split.
    - change (-1) with (IZR (-1)). rewrite <- V1. apply nearest_ge_fmt; [apply val_fmt | rewrite V1; lra].
    - rewrite <- nearest_0. apply nearest_le. lra. }
  split; [|split].
  - intros x [(F & H)| ->]; [destruct (FI x F H) as (A & _ & B); auto|]. cbn [ref_expm1]. split; [exact F1 | rewrite V1; lra].
  - intros x y Hx Hy [-> | (Fx & Fy & L)].
    + cbn [ref_expm1]. rewrite V1. destruct Hy as [(F & H)| ->]; [apply FI; assumption | cbn [ref_expm1]; rewrite V1; lra].
    + destruct Hx as [(_ & HX)|E]; [|subst; discriminate Fx]. destruct Hy as [(_ & HY)|E]; [|subst; discriminate Fy].
      destruct (FI x Fx HX) as (_ & VX & _). destruct (FI y Fy HY) as (_ & VY & _). rewrite VX, VY. apply nearest_le.
      assert (exp (val x) <= exp (val y)) by (destruct L as [L|L]; [left; apply exp_increasing; exact L | rewrite L; lra]). lra.
  - intros x F H. destruct (FI x F) as (_ & V & _); [lra|]. rewrite V, H, exp_0, Rminus_diag_eq by reflexivity. apply nearest_0.
Qed.
Definition crude_hypot (a b : f64) : f64 := fadd (fabs a) (fabs b).
Definition crude_atan2 (y x : f64) : f64 := fzero.
Example C219_case : let two := lit 2 0 in let pol_1 := [(fone, fzero)] in let pol_2 := [(fone, fzero); (two, fzero)] in let rap_2 := [fzero; fone] in
  good_expm1 ref_expm1 /\ spreads crude_hypot crude_atan2 [fzero] rap_2 pol_1 pol_2 /\
  (forall i j d dpt, pair_of crude_hypot crude_atan2 [fzero] rap_2 pol_1 pol_2 i j d dpt -> fin d /\ fin dpt) /\
  (exists C, f_assignment_cost crude_hypot crude_atan2 ref_expm1 [fzero] rap_2 pol_1 pol_2 (Ok C)).
Proof.
  intros two pol_1 pol_2 rap_2. split; [apply ref_expm1_good|].
  assert (QV : forall v, v = lit 1 (-2) -> spread v).
  { intros v ->. destruct (lit_ok 1 (-2) ltac:(lia) ltac:(lia)) as (V & F). split; [exact F|]. rewrite V, Rmult_1_l. unfold min_normal. change (bpow radix2 (-2)) with (/ 4). apply Rinv_le_contravar; [lra|].
    apply Rle_trans with (2 ^ 2); [simpl; lra | apply Rle_pow; [lra | lia]]. }
  assert (TV : forall a b v, f_var [a; b] v -> let m := fdiv (fadd a b) two in let sq x := fmul (fsub x m) (fsub x m) in v = fdiv (fadd (sq a) (sq b)) two).
  { assert (PS : forall t a b, Permutation (leaves t) [a; b] -> f_sum t = fadd a b).
    { intros t a b P. apply Permutation_sym, Permutation_length_2_inv in P as [E|E]; [apply two_sum; exact E|]. rewrite (two_sum t b a E). apply fadd_comm. }
    intros a b v (t1 & t2 & P1 & P2 & ->) m sq. unfold f_mean in *. cbn [length map] in *. rewrite (PS t1 _ _ P1) in P2. rewrite (PS t2 _ _ P2). reflexivity. }
  assert (SP : spreads crude_hypot crude_atan2 [fzero] rap_2 pol_1 pol_2).
  { split.
    - intros v H. apply QV. cbn [map pol_2] in H. rewrite (TV _ _ _ H). apply B2SF_inj. lazy. reflexivity.
    - intros row v I H. unfold f_distances, pol_1, rap_2, pol_2 in I. cbn [map combine In fst snd] in I. destruct I as [<-|[]]. apply QV. rewrite (TV _ _ _ H). apply B2SF_inj. lazy. reflexivity. }
  split; [exact SP|]. split.
  - intros i j d dpt (r1 & r2 & p1 & p2 & H1 & H2 & H3 & H4 & -> & ->). destruct i as [|[|i]]; cbn in H1, H3; try discriminate.
    injection H1 as <-. injection H3 as <-. destruct j as [|[|j]]; cbn in H2, H4; try (destruct j; discriminate); injection H2 as <-; injection H4 as <-; split; vm_compute; reflexivity.
  - destruct (C218_result_exists crude_hypot crude_atan2 ref_expm1 [fzero] rap_2 pol_1 pol_2 eq_refl ltac:(discriminate)) as (out & vp & HV & HO).
    destruct SP as (SP & _). rewrite (spread_not_zero _ (SP _ HV)) in HO. destruct HO as (C & -> & HC). exists C, vp. split; [exact HV|]. rewrite (spread_not_zero _ (SP _ HV)). exists C. split; [reflexivity | exact HC].
Qed.

(** * C220 *)
(** The reciprocal of a positive variance below 2^-1024 is infinite, and infinity times a zero distance is not a number: the matrix is not
    usable, though the candidates are told apart in both coordinates. *)
Definition speck : f64 := lit 1 (-512).
Theorem C220_tiny_spread_refuted : exists rap_1 rap_2 pol_1 pol_2, length rap_1 = length pol_1 /\ length rap_2 = length pol_2 /\
  (forall v, f_var (map (f_abs crude_hypot) pol_2) v -> spread v) /\
  (forall row v, In row (f_distances crude_hypot crude_atan2 rap_1 rap_2 pol_1 pol_2) -> f_var row v -> fin v /\ 0 < val v) /\
  (forall i j d dpt, pair_of crude_hypot crude_atan2 rap_1 rap_2 pol_1 pol_2 i j d dpt -> fin d /\ fin dpt) /\
  forall expm1 out, expm1 B754_nan = B754_nan -> f_assignment_cost crude_hypot crude_atan2 expm1 rap_1 rap_2 pol_1 pol_2 out ->
  exists C, out = Ok C /\ entry C 0 0 B754_nan.
Proof.
  set (two := lit 2 0). set (pol_1 := [(fone, fzero)]). set (pol_2 := [(fone, fzero); (two, fzero)]). set (rap_2 := [fzero; speck]).
  exists [fzero], rap_2, pol_1, pol_2. split; [reflexivity|]. split; [reflexivity|].
  assert (QV : forall v, v = lit 1 (-2) -> spread v).
  { intros v ->. destruct (lit_ok 1 (-2) ltac:(lia) ltac:(lia)) as (V & F). split; [exact F|]. rewrite V, Rmult_1_l. unfold min_normal. change (bpow radix2 (-2)) with (/ 4). apply Rinv_le_contravar; [lra|].
    apply Rle_trans with (2 ^ 2); [simpl; lra | apply Rle_pow; [lra | lia]]. }
  assert (TV : forall a b v, f_var [a; b] v -> let m := fdiv (fadd a b) two in let sq x := fmul (fsub x m) (fsub x m) in v = fdiv (fadd (sq a) (sq b)) two).
  { assert (PS : forall t a b, Permutation (leaves t) [a; b] -> f_sum t = fadd a b).
    { intros t a b P. apply Permutation_sym, Permutation_length_2_inv in P as [E|E]; [apply two_sum; exact E|]. rewrite (two_sum t b a E). apply fadd_comm. }
    intros a b v (t1 & t2 & P1 & P2 & ->) m sq. unfold f_mean in *. cbn [length map] in *. rewrite (PS t1 _ _ P1) in P2. rewrite (PS t2 _ _ P2). reflexivity. }
  assert (SP : forall v, f_var (map (f_abs crude_hypot) pol_2) v -> spread v).
  { intros v H. apply QV. cbn [map pol_2] in H. rewrite (TV _ _ _ H). apply B2SF_inj. lazy. reflexivity. }
  assert (SD : forall row v, In row (f_distances crude_hypot crude_atan2 [fzero] rap_2 pol_1 pol_2) -> f_var row v -> v = lit 1 (-1026)).
  { intros row v I H. unfold f_distances, pol_1, rap_2, pol_2 in I. cbn [map combine In fst snd] in I. destruct I as [<-|[]]. rewrite (TV _ _ _ H). apply B2SF_inj. lazy. reflexivity. }
  assert (LV : fin (lit 1 (-1026)) /\ 0 < val (lit 1 (-1026))).
  { destruct (lit_ok 1 (-1026) ltac:(lia) ltac:(lia)) as (V & F). split; [exact F|]. rewrite V, Rmult_1_l. apply bpow_gt_0. }
  split; [exact SP|]. split; [intros row v I H; rewrite (SD row v I H); exact LV|]. split.
  - intros i j d dpt (r1 & r2 & p1 & p2 & H1 & H2 & H3 & H4 & -> & ->). destruct i as [|[|i]]; cbn in H1, H3; try discriminate.
    injection H1 as <-. injection H3 as <-. destruct j as [|[|j]]; cbn in H2, H4; try (destruct j; discriminate); injection H2 as <-; injection H4 as <-; split; vm_compute; reflexivity.
  - intros expm1 out HN (vp & HV & HO). rewrite (spread_not_zero _ (SP _ HV)) in HO. destruct HO as (C & -> & HC). exists C. split; [reflexivity|].
    assert (I : In (map (fun b => f_delta crude_hypot crude_atan2 fzero (fst b) (fone, fzero) (snd b)) (combine rap_2 pol_2)) (f_distances crude_hypot crude_atan2 [fzero] rap_2 pol_1 pol_2)) by (left; reflexivity).
    unfold f_distances, pol_1 at 1 in HC. cbn [map combine fst snd] in HC. inversion HC as [|e c l C' (vd & HD & _ & HE) HR]; subst. cbn [fst snd] in *.
    specialize (SD _ _ I HD). rewrite SD in HE. specialize (HE ltac:(vm_compute; reflexivity)). exists c. split; [reflexivity|]. rewrite HE. cbn [rap_2 pol_2 combine map nth_error fst snd].
    f_equal. unfold f_cost. cbv zeta.
    replace (f_exponent (fdiv fone (lit 1 (-1026))) (f_delta crude_hypot crude_atan2 fzero fzero (fone, fzero) (fone, fzero))) with (B754_nan : f64) by (apply B2SF_inj; lazy; reflexivity).
    rewrite HN. unfold fadd, fneg. destruct (expm1 _); reflexivity.
Qed.
(** A variance of at least 2^-1022 is enough: every entry is a number. *)
Theorem C220_usable_partial : forall hypot atan2 expm1 rap_1 rap_2 pol_1 pol_2 C i j c, good_expm1 expm1 ->
  (forall i j d dpt, pair_of hypot atan2 rap_1 rap_2 pol_1 pol_2 i j d dpt -> fin d /\ fin dpt) ->
  spreads hypot atan2 rap_1 rap_2 pol_1 pol_2 -> f_assignment_cost hypot atan2 expm1 rap_1 rap_2 pol_1 pol_2 (Ok C) ->
  entry C i j c -> is_nan c = false /\ fin c.
Proof.
  intros. assert (fin c /\ 0 <= val c <= 2) as (F & _) by (eapply C219_range; eassumption). split; [apply fin_not_nan; exact F | exact F].
Qed.

Print Assumptions C219_range.
Print Assumptions C219_order.
Print Assumptions C219_zero.
Print Assumptions C218_equal_pt_refuted.
Print Assumptions C218_two_partial.
Print Assumptions C218_result_exists.
Print Assumptions C220_tiny_spread_refuted.
Print Assumptions C220_usable_partial.
