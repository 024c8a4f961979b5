(** C246: combined_mass with weights in IEEE doubles. *)
From Coq Require Import ZArith Reals List Bool Lia Lra Permutation.
From Flocq Require Import Core BinarySingleNaN.
From Verif Require Import Prelude SpecIEEE Floats FloatBase FloatOps P_Float P_Float3 P_Float4 P_Float5 Floats3 Floats6 P_Float13 P_Float15.
From Verif Require Import Floats18.
Import ListNotations.
Open Scope R_scope.

(** * Vocabulary *)
(** The exact weighted sum of one component, and the same sum of magnitudes (with the smallest normal number for each particle). *)
Definition weighted (c : fmom -> f64) (ws ps : list fmom) : R := fold_right Rplus 0 (map2 (fun w p => val (c w) * val (c p)) ws ps).
Definition magnitude (c : fmom -> f64) (ws ps : list fmom) : R := fold_right Rplus 0 (map2 (fun w p => Rabs (val (c w) * val (c p)) + min_normal) ws ps).

Lemma mn0 : 0 < min_normal. Proof. apply Rinv_0_lt_compat, pow_lt. lra. Qed.
Lemma mag_pos c ws ps : 0 <= magnitude c ws ps.
Proof.
  unfold magnitude. pose proof mn0. revert ps. induction ws as [|w ws IH]; intros [|p ps]; cbn [map2 fold_right]; try lra. specialize (IH ps). pose proof (Rabs_pos (val (c w) * val (c p))). lra.
Qed.
(** The products of one component, [c] being one of mx, my, mz, me. *)
Lemma products (c : fmom -> f64) ws ps : (forall w p, c (f_wmul w p) = fmul (c w) (c p)) -> length ws = length ps -> Forall (fun p => fin (c p)) ws -> Forall (fun p => fin (c p)) ps ->
  magnitude c ws ps <= 2 ^ 498 ->
  Forall fin (map c (map2 f_wmul ws ps)) /\ Rabs (total (map c (map2 f_wmul ws ps)) - weighted c ws ps) <= u * magnitude c ws ps /\
  total_abs (map c (map2 f_wmul ws ps)) <= (1 + u) * magnitude c ws ps.
Proof.
  intros HC. pose proof u_pos as U0. pose proof mn0 as MN. revert ps. induction ws as [|w ws IH]; intros [|p ps] L FW FP HB; try discriminate L.
  { unfold total, total_abs, weighted, magnitude. cbn [map2 map fold_right]. split; [constructor|]. rewrite Rminus_0_r, Rabs_R0. lra. }
  injection L as L. inversion FW as [|? ? Fw FW']; subst. inversion FP as [|? ? Fp FP']; subst.
  assert (MG : magnitude c (w :: ws) (p :: ps) = (Rabs (val (c w) * val (c p)) + min_normal) + magnitude c ws ps) by reflexivity. rewrite MG in *.
  pose proof (mag_pos c ws ps) as M0. pose proof (Rabs_pos (val (c w) * val (c p))) as A0.
  destruct (IH ps L FW' FP' ltac:(lra)) as (I1 & I2 & I3).
  assert (HU : 2 ^ 498 <= huge) by (unfold huge; apply Rle_pow; [lra | lia]).
  destruct (fmul_ok (c w) (c p) Fw Fp) as (V & F & _); [apply no_overflow; lra|]. pose proof (nearest_err_any (val (c w) * val (c p))) as N.
  unfold total, total_abs, weighted in *. cbn [map2 map fold_right]. rewrite HC. split; [constructor; assumption|]. set (m := val (c w) * val (c p)) in *. rewrite V.
  split.
  - match goal with |- Rabs (nearest m + ?t - (m + ?w0)) <= _ => replace (nearest m + t - (m + w0)) with ((nearest m - m) + (t - w0)) by ring end. eapply Rle_trans; [apply Rabs_triang|]. lra.
  - assert (Rabs (nearest m) <= Rabs m + u * (Rabs m + min_normal)). { replace (nearest m) with (m + (nearest m - m)) by ring. eapply Rle_trans; [apply Rabs_triang|]. lra. } lra.
Qed.
Lemma square_shift T W B d : 0 <= d -> Rabs (T - W) <= d * B -> Rabs W <= B -> Rabs (T * T - W * W) <= (2 * d + d * d) * (B * B).
Proof.
  intros D H HW. replace (T * T - W * W) with ((T - W) * (2 * W + (T - W))) by ring. rewrite Rabs_mult. pose proof (Rabs_pos W). pose proof (Rabs_pos (T - W)).
  assert (R : Rabs (2 * W + (T - W)) <= (2 + d) * B). { eapply Rle_trans; [apply Rabs_triang|]. rewrite Rabs_mult, (Rabs_pos_eq 2) by lra. lra. }
  apply Rle_trans with (d * B * ((2 + d) * B)); [apply Rmult_le_compat; try apply Rabs_pos; assumption | right; ring].
Qed.
Lemma rmax_shift a b d : Rabs (a - b) <= d -> Rabs (Rmax 0 a - Rmax 0 b) <= d.
Proof. intros H. apply Rabs_le_inv in H. unfold Rmax. destruct (Rle_dec 0 a), (Rle_dec 0 b); apply Rabs_le; lra. Qed.
Lemma weighted_le c ws ps : Rabs (weighted c ws ps) <= magnitude c ws ps.
Proof.
  unfold weighted, magnitude. pose proof mn0. revert ps. induction ws as [|w ws IH]; intros [|p ps]; cbn [map2 fold_right]; try (rewrite Rabs_R0; lra).
  specialize (IH ps). eapply Rle_trans; [apply Rabs_triang|]. lra.
Qed.

(** * C246 *)
Theorem C246_weighted : forall ws ps n m, length ps = S n -> length ws = length ps -> INR n * u <= / 1000 -> Forall fin_mom ws -> Forall fin_mom ps ->
  magnitude mx ws ps <= 2 ^ 498 -> magnitude my ws ps <= 2 ^ 498 -> magnitude mz ws ps <= 2 ^ 498 -> magnitude me ws ps <= 2 ^ 498 ->
  f_weighted_mass ws ps m ->
  let sq x := x * x in
  let exact := sq (weighted me ws ps) - (sq (weighted mx ws ps) + sq (weighted my ws ps) + sq (weighted mz ws ps)) in
  let size := sq (magnitude me ws ps) + (sq (magnitude mx ws ps) + sq (magnitude my ws ps) + sq (magnitude mz ws ps)) in
  fin m /\ 0 <= val m /\ Rabs (val m * val m - Rmax 0 exact) <= (3 * INR n + 11) * u * size + 8 * u * min_normal.
Proof.
  intros ws ps n m LP LW NU FW FP MX MY MZ ME (tx & ty & tz & te & t & PX & PY & PZ & PE & PT & ->) sq exact size. set (data := map2 f_wmul ws ps) in *.
  assert (FC : forall c : fmom -> f64, (forall p, fin_mom p -> fin (c p)) -> Forall (fun p => fin (c p)) ws /\ Forall (fun p => fin (c p)) ps).
  { intros c H. split; [eapply Forall_impl; [|exact FW] | eapply Forall_impl; [|exact FP]]; exact H. }
  assert (GX : forall p, fin_mom p -> fin (mx p)) by (intros p H; apply H). assert (GY : forall p, fin_mom p -> fin (my p)) by (intros p H; apply H).
  assert (GZ : forall p, fin_mom p -> fin (mz p)) by (intros p H; apply H). assert (GE : forall p, fin_mom p -> fin (me p)) by (intros p H; apply H).
  destruct (products mx ws ps ltac:(reflexivity) LW (proj1 (FC mx GX)) (proj2 (FC mx GX)) MX) as (FX & EX & AX).
  destruct (products my ws ps ltac:(reflexivity) LW (proj1 (FC my GY)) (proj2 (FC my GY)) MY) as (FY & EY & AY).
  destruct (products mz ws ps ltac:(reflexivity) LW (proj1 (FC mz GZ)) (proj2 (FC mz GZ)) MZ) as (FZ & EZ & AZ).
  destruct (products me ws ps ltac:(reflexivity) LW (proj1 (FC me GE)) (proj2 (FC me GE)) ME) as (FE & EE & AE). fold data in FX, EX, AX, FY, EY, AY, FZ, EZ, AZ, FE, EE, AE.
  pose proof u_pos as U0. pose proof u_small as U1.
  assert (LD : length data = S n).
  { rewrite <- LP. unfold data. clear - LW. revert ps LW. induction ws as [|w ws IH]; intros [|p ps] L; try discriminate L; [reflexivity|]. cbn. f_equal. apply IH. injection L as L. exact L. }
  assert (FD : Forall fin_mom data).
  { rewrite Forall_map in FX, FY, FZ, FE. rewrite Forall_forall in *. intros p I. split; [exact (FX p I)|]. split; [exact (FY p I)|]. split; [exact (FZ p I) | exact (FE p I)]. }
  assert (P99 : 2 * 2 ^ 498 = 2 ^ 499) by reflexivity.
  assert (A99 : forall a b, a <= (1 + u) * b -> 0 <= b -> b <= 2 ^ 498 -> a <= 2 ^ 499) by (intros a b H1 H0 H2; assert ((1 + u) * b <= 2 * b) by (apply Rmult_le_compat_r; lra); lra).
  pose proof (mag_pos mx ws ps) as QX. pose proof (mag_pos my ws ps) as QY. pose proof (mag_pos mz ws ps) as QZ. pose proof (mag_pos me ws ps) as QE.
  pose proof (C199_small_partial data n tx ty tz te t LD NU FD PX PY PZ PE PT (A99 _ _ AX QX MX) (A99 _ _ AY QY MY) (A99 _ _ AZ QZ MZ) (A99 _ _ AE QE ME)) as MAIN. cbv zeta in MAIN.
  destruct (C198_total tx ty tz te t) as (FR & R0); [|exact PT|].
  { rewrite !Forall_app. split; [|split; [|split]]; (eapply Permutation_Forall; [apply Permutation_sym; eassumption|]); assumption. }
  split; [exact FR|]. split; [exact R0|]. set (r := f_combined_mass tx ty tz te t) in *.
  pose proof (square_shift _ _ _ u ltac:(lra) EX (weighted_le mx ws ps)) as SX. pose proof (square_shift _ _ _ u ltac:(lra) EY (weighted_le my ws ps)) as SY.
  pose proof (square_shift _ _ _ u ltac:(lra) EZ (weighted_le mz ws ps)) as SZ. pose proof (square_shift _ _ _ u ltac:(lra) EE (weighted_le me ws ps)) as SE.
  assert (SQ : forall a b, 0 <= a -> a <= (1 + u) * b -> a * a <= (1 + (2 * u + u * u)) * (b * b)).
  { intros a b H0 H. replace ((1 + (2 * u + u * u)) * (b * b)) with ((1 + u) * b * ((1 + u) * b)) by ring. apply Rmult_le_compat; assumption. }
  pose proof (SQ _ _ (total_abs_pos _) AX) as TX. pose proof (SQ _ _ (total_abs_pos _) AY) as TY. pose proof (SQ _ _ (total_abs_pos _) AZ) as TZ. pose proof (SQ _ _ (total_abs_pos _) AE) as TE.
  set (X := total (map mx data)) in *. set (Y := total (map my data)) in *. set (Z := total (map mz data)) in *. set (E := total (map me data)) in *.
  set (aX := total_abs (map mx data)) in *. set (aY := total_abs (map my data)) in *. set (aZ := total_abs (map mz data)) in *. set (aE := total_abs (map me data)) in *.
  assert (SZE : aE * aE + (aX * aX + aY * aY + aZ * aZ) <= (1 + (2 * u + u * u)) * size) by (unfold size, sq; lra).
  assert (S0 : 0 <= size).
  { unfold size, sq. pose proof (Rmult_le_pos _ _ QX QX). pose proof (Rmult_le_pos _ _ QY QY). pose proof (Rmult_le_pos _ _ QZ QZ). pose proof (Rmult_le_pos _ _ QE QE). lra. }
  assert (SH : Rabs (Rmax 0 (E * E - (X * X + Y * Y + Z * Z)) - Rmax 0 exact) <= (2 * u + u * u) * size).
  { apply rmax_shift. unfold exact, sq, size. apply Rabs_le_inv in SX, SY, SZ, SE. apply Rabs_le. unfold sq. lra. }
  replace (val r * val r - Rmax 0 exact) with ((val r * val r - Rmax 0 (E * E - (X * X + Y * Y + Z * Z))) + (Rmax 0 (E * E - (X * X + Y * Y + Z * Z)) - Rmax 0 exact)) by ring.
  eapply Rle_trans; [apply Rabs_triang|]. pose proof (pos_INR n) as N0. set (N := INR n) in *. clearbody N.
  assert (K : (3 * N + 8) * u * (aE * aE + (aX * aX + aY * aY + aZ * aZ)) <= (3 * N + 8) * u * ((1 + (2 * u + u * u)) * size)) by (apply Rmult_le_compat_l; [apply Rmult_le_pos; lra | exact SZE]).
  assert (UU : u * u <= / 1000 * u) by (apply Rmult_le_compat_r; lra).
  assert (K2 : (3 * N + 8) * u * (2 * u + u * u) <= / 2 * u).
  { assert (B : (3 * N + 8) * u <= / 100) by lra. apply Rle_trans with (/ 100 * (2 * u + u * u)); [apply Rmult_le_compat_r; [|exact B] | lra]. assert (0 <= u * u) by (apply Rmult_le_pos; lra). lra. }
  assert (K3 : ((3 * N + 8) * u * (2 * u + u * u) + (2 * u + u * u)) * size <= 3 * u * size) by (apply Rmult_le_compat_r; lra).
  replace ((3 * N + 11) * u * size) with ((3 * N + 8) * u * size + 3 * u * size) by ring.
  replace ((3 * N + 8) * u * ((1 + (2 * u + u * u)) * size)) with ((3 * N + 8) * u * size + (3 * N + 8) * u * (2 * u + u * u) * size) in K by ring.
  rewrite Rmult_plus_distr_r in K3. lra.
Qed.

(** Two particles, the first doubled: the weighted momenta (2,0,0,2) and (0,0,0,4) have mass sqrt 32. *)
Definition c246_ws : list fmom := [(lit 2 0, lit 2 0, lit 2 0, lit 2 0); (fone, fone, fone, fone)].
Definition c246_ps : list fmom := [(fone, fzero, fzero, fone); (fzero, fzero, fzero, lit 4 0)].
Example C246_case : Forall fin_mom c246_ws /\ Forall fin_mom c246_ps /\ INR 1 * u <= / 1000 /\
  magnitude mx c246_ws c246_ps <= 2 ^ 498 /\ magnitude my c246_ws c246_ps <= 2 ^ 498 /\ magnitude mz c246_ws c246_ps <= 2 ^ 498 /\ magnitude me c246_ws c246_ps <= 2 ^ 498 /\
  weighted me c246_ws c246_ps = 6 /\ weighted mx c246_ws c246_ps = 2 /\
  exists m, f_weighted_mass c246_ws c246_ps m /\ B2SF m = B2SF (lit 6369051672525773 (-50)).
Proof.
  assert (V1 : val fone = 1) by (exact (proj1 (lit_int 1 ltac:(lia)))). assert (V0 : val fzero = 0) by reflexivity.
  assert (V2 : val (lit 2 0) = 2) by (exact (proj1 (lit_int 2 ltac:(lia)))). assert (V4 : val (lit 4 0) = 4) by (exact (proj1 (lit_int 4 ltac:(lia)))).
  assert (M1 : min_normal <= 1). { unfold min_normal. rewrite <- Rinv_1. apply Rinv_le_contravar; [lra|]. apply pow_R1_Rle. lra. }
  assert (P : 100 <= 2 ^ 498). { replace (2 ^ 498) with (2 ^ 7 * 2 ^ 491) by (rewrite <- pow_add; reflexivity). assert (1 <= 2 ^ 491) by (apply pow_R1_Rle; lra). lra. }
  split; [repeat (apply Forall_cons; [repeat split|]); apply Forall_nil|]. split; [repeat (apply Forall_cons; [repeat split|]); apply Forall_nil|].
  split; [pose proof u_small; cbn [INR]; lra|].
  unfold magnitude, weighted, c246_ws, c246_ps. cbn [map2 fold_right mx my mz me fst snd]. rewrite ?V0, ?V1, ?V2, ?V4.
  split; [|split; [|split; [|split; [|split; [lra | split; [lra|]]]]]].
  1-4: rewrite !Rabs_pos_eq by lra; lra.
  eexists. split.
  - exists (Node (Leaf (fmul (lit 2 0) fone)) (Leaf (fmul fone fzero))), (Node (Leaf (fmul (lit 2 0) fzero)) (Leaf (fmul fone fzero))), (Node (Leaf (fmul (lit 2 0) fzero)) (Leaf (fmul fone fzero))), (Node (Leaf (fmul (lit 2 0) fone)) (Leaf (fmul fone (lit 4 0)))).
    eexists. split; [apply Permutation_refl|]. split; [apply Permutation_refl|]. split; [apply Permutation_refl|]. split; [apply Permutation_refl|].
    split; [|reflexivity]. instantiate (1 := Node (Node (Leaf _) (Leaf _)) (Node (Leaf _) (Leaf _))). apply Permutation_refl.
  - vm_compute. reflexivity.
Qed.

Print Assumptions C246_weighted.
