(** Boosts and rotations in IEEE double arithmetic. *)
From Coq Require Import ZArith Reals List Bool Lia Lra.
From Coquelicot Require Import Coquelicot.
From Flocq Require Import Core BinarySingleNaN.
From Verif Require Import SpecReal SpecIEEE Floats FloatBase FloatOps Floats3.
Import ListNotations.
Open Scope R_scope.

(** * Vocabulary *)

Definition fin4 (p : fmom) : Prop := fin (mx p) /\ fin (my p) /\ fin (mz p) /\ fin (me p).
(** Finite and at most 2^500 in magnitude. *)
Definition modest (x : f64) : Prop := fin x /\ Rabs (val x) <= 2 ^ 500.
Definition modest4 (p : fmom) : Prop := modest (mx p) /\ modest (my p) /\ modest (mz p) /\ modest (me p).
(** The library routine [f] returns at [a] the double nearest to the true value [g]. *)
Definition correct_at (f : f64 -> f64) (g : R -> R) (a : f64) : Prop := fin (f a) /\ val (f a) = nearest (g (val a)).

Lemma mn_pos : 0 < min_normal. Proof. apply Rinv_0_lt_compat, pow_lt. lra. Qed.
Lemma u_b : 0 < u <= / 1000000000000000. Proof. split; [apply u_pos | apply u_small]. Qed.

(** * The error of one difference (sum) of two rounded products *)

Lemma pow500 : 2 ^ 500 * 2 ^ 500 = 2 ^ 1000. Proof. rewrite <- pow_add. reflexivity. Qed.
Lemma pow1000 : 8 * 2 ^ 1000 <= huge.
Proof. unfold huge. replace 1023%nat with (1000 + 23)%nat by reflexivity. rewrite pow_add. assert (0 < 2 ^ 1000) by (apply pow_lt; lra). assert (8 <= 2 ^ 23) by (simpl; lra). nra. Qed.

Lemma modest_prod : forall a b, modest a -> modest b -> Rabs (val a * val b) <= 2 ^ 1000.
Proof. intros a b [_ A] [_ B]. rewrite Rabs_mult, <- pow500. apply Rmult_le_compat; auto using Rabs_pos. Qed.

Lemma prod_fl : forall a b, modest a -> modest b -> fin (fmul a b) /\ val (fmul a b) = nearest (val a * val b) /\ Rabs (val (fmul a b)) <= 2 ^ 1000.
Proof.
  intros a b A B. pose proof (modest_prod a b A B) as P. pose proof pow1000 as Q. assert (P0 : 0 < 2 ^ 1000) by (apply pow_lt; lra).
  destruct (fmul_ok a b (proj1 A) (proj1 B)) as (V & F & _); [apply no_overflow; lra|]. repeat split; [exact F | exact V|].
  rewrite V. apply nearest_abs_le; [|exact P]. replace (2 ^ 1000) with (bpow radix2 1000); [apply fmt_bpow; lia|].
  exact (bpow_pos_pow 1000).
Qed.

Lemma prod_err : forall a b, modest a -> modest b -> Rabs (val (fmul a b) - val a * val b) <= u * Rabs (val a * val b) + u * min_normal.
Proof. intros a b A B. destruct (prod_fl a b A B) as (_ & V & _). rewrite V. apply nearest_err_any. Qed.

Lemma comb : forall k M1 M2 a b A B e, 0 <= k <= 1000 -> 0 <= M1 -> 0 <= M2 -> Rabs e <= u ->
  Rabs A <= M1 -> Rabs B <= M2 ->
  Rabs (a - A) <= (k * u + u * (1 + k * u)) * M1 + u * min_normal -> Rabs (b - B) <= (k * u + u * (1 + k * u)) * M2 + u * min_normal ->
  Rabs ((a - b) * (1 + e) - (A - B)) <= (k + 3) * u * (M1 + M2) + 3 * u * min_normal.
Proof.
  intros k M1 M2 a b A B e K HM1 HM2 He HA HB Ha Hb. pose proof u_b as [U0 U1]. pose proof mn_pos as MN.
  replace ((a - b) * (1 + e) - (A - B)) with ((a - A) - (b - B) + e * ((a - A) - (b - B)) + e * (A - B)) by ring.
  set (d := (a - A) - (b - B)) in *. assert (D : Rabs d <= (k * u + u * (1 + k * u)) * (M1 + M2) + 2 * (u * min_normal)).
  { unfold d. replace (a - A - (b - B)) with ((a - A) + - (b - B)) by ring. eapply Rle_trans; [apply Rabs_triang|]. rewrite Rabs_Ropp. lra. }
  assert (AB : Rabs (A - B) <= M1 + M2). { replace (A - B) with (A + - B) by ring. eapply Rle_trans; [apply Rabs_triang|]. rewrite Rabs_Ropp. lra. }
  assert (E1 : Rabs (e * d) <= u * ((k * u + u * (1 + k * u)) * (M1 + M2) + 2 * (u * min_normal))) by (rewrite Rabs_mult; apply Rmult_le_compat; auto using Rabs_pos).
  assert (E2 : Rabs (e * (A - B)) <= u * (M1 + M2)) by (rewrite Rabs_mult; apply Rmult_le_compat; auto using Rabs_pos).
  eapply Rle_trans; [apply Rabs_triang|]. eapply Rle_trans; [apply Rplus_le_compat_r, Rabs_triang|].
  set (M := M1 + M2) in *. assert (M0 : 0 <= M) by (unfold M; lra). clearbody M d. clear HA HB Ha Hb.
  assert (KU : k * u <= / 1000000000000) by nra. assert (UM : 0 <= u * min_normal) by (apply Rmult_le_pos; lra).
  assert (UU : u * (u * min_normal) <= / 4 * (u * min_normal)) by (apply Rmult_le_compat_r; lra).
  assert (W0 : 0 <= u * M) by (apply Rmult_le_pos; lra).
  assert (W1 : u * (1 + k * u) * M <= u * M * (1 + / 1000000)) by (replace (u * (1 + k * u) * M) with (u * M * (1 + k * u)) by ring; apply Rmult_le_compat_l; lra).
  assert (W2 : u * ((k * u + u * (1 + k * u)) * M) <= / 1000000 * (u * M)).
  { replace (u * ((k * u + u * (1 + k * u)) * M)) with ((k * u + u * (1 + k * u)) * (u * M)) by ring. apply Rmult_le_compat_r; [lra|].
    assert (u * (1 + k * u) <= u * 2) by (apply Rmult_le_compat_l; lra). lra. }
  replace ((k * u + u * (1 + k * u)) * M) with (k * u * M + u * (1 + k * u) * M) in D by ring.
  replace ((k + 3) * u * M) with (k * u * M + 3 * (u * M)) by ring.
  rewrite Rmult_plus_distr_l in E1. lra.
Qed.

(** [c] stands for [C] up to k units. *)
Lemma prod_within : forall k c C e, 0 <= k <= 1000 -> modest c -> modest e -> within k (val c) C ->
  Rabs (val (fmul c e) - C * val e) <= (k * u + u * (1 + k * u)) * Rabs (C * val e) + u * min_normal.
Proof.
  intros k c C e K Hc He W. unfold within in W. pose proof (prod_err c e Hc He) as P. pose proof u_b as [U0 U1].
  assert (D : Rabs (val c * val e - C * val e) <= k * u * Rabs (C * val e)).
  { rewrite <- Rmult_minus_distr_r, !Rabs_mult. rewrite <- Rmult_assoc. apply Rmult_le_compat_r; [apply Rabs_pos | exact W]. }
  assert (N : Rabs (val c * val e) <= (1 + k * u) * Rabs (C * val e)).
  { replace (val c * val e) with ((val c * val e - C * val e) + C * val e) by ring. eapply Rle_trans; [apply Rabs_triang|]. lra. }
  assert (N' : u * Rabs (val c * val e) <= u * ((1 + k * u) * Rabs (C * val e))) by (apply Rmult_le_compat_l; lra).
  replace (val (fmul c e) - C * val e) with ((val (fmul c e) - val c * val e) + (val c * val e - C * val e)) by ring.
  eapply Rle_trans; [apply Rabs_triang|]. lra.
Qed.

Lemma diff_err : forall k c s e z C S, 0 <= k <= 1000 -> modest c -> modest s -> modest e -> modest z ->
  within k (val c) C -> within k (val s) S ->
  fin (fsub (fmul c e) (fmul s z))
  /\ Rabs (val (fsub (fmul c e) (fmul s z)) - (C * val e - S * val z)) <= (k + 3) * u * (Rabs (C * val e) + Rabs (S * val z)) + 3 * u * min_normal.
Proof.
  intros k c s e z C S K Hc Hs He Hz WC WS. destruct (prod_fl c e Hc He) as (F1 & _ & B1). destruct (prod_fl s z Hs Hz) as (F2 & _ & B2).
  assert (P0 : 0 < 2 ^ 1000) by (apply pow_lt; lra). pose proof pow1000.
  destruct (fsub_ok _ _ F1 F2) as (V & F & _).
  { apply no_overflow. unfold Rminus. eapply Rle_trans; [apply Rabs_triang|]. rewrite Rabs_Ropp. lra. }
  split; [exact F|]. rewrite V. destruct (sub_rel (fmul c e) (fmul s z)) as (r & Hr & ->).
  apply comb; auto using Rabs_pos, prod_within, Rle_refl.
Qed.

Lemma sum_err : forall k c s e z C S, 0 <= k <= 1000 -> modest c -> modest s -> modest e -> modest z ->
  within k (val c) C -> within k (val s) S ->
  fin (fadd (fmul c e) (fmul s z))
  /\ Rabs (val (fadd (fmul c e) (fmul s z)) - (C * val e + S * val z)) <= (k + 3) * u * (Rabs (C * val e) + Rabs (S * val z)) + 3 * u * min_normal.
Proof.
  intros k c s e z C S K Hc Hs He Hz WC WS. destruct (prod_fl c e Hc He) as (F1 & _ & B1). destruct (prod_fl s z Hs Hz) as (F2 & _ & B2).
  assert (P0 : 0 < 2 ^ 1000) by (apply pow_lt; lra). pose proof pow1000.
  destruct (fadd_ok _ _ F1 F2) as (V & F).
  { apply no_overflow. eapply Rle_trans; [apply Rabs_triang|]. lra. }
  split; [exact F|]. rewrite V. destruct (add_rel (fmul c e) (fmul s z)) as (r & Hr & ->).
  replace ((val (fmul c e) + val (fmul s z)) * (1 + r) - (C * val e + S * val z))
    with ((val (fmul c e) - - val (fmul s z)) * (1 + r) - (C * val e - - (S * val z))) by ring.
  apply comb; auto using Rabs_pos, prod_within, Rle_refl.
  - rewrite Rabs_Ropp. apply Rle_refl.
  - replace (- val (fmul s z) - - (S * val z)) with (- (val (fmul s z) - S * val z)) by ring. rewrite Rabs_Ropp. apply prod_within; assumption.
Qed.

(** * C169: accuracy of boosts and rotations *)

(** A boost by [shift] whose library values of cosh and sinh are right to [k] units gives the boosted energy and
    longitudinal momentum with an error of at most k+3 units of the terms that are added, and does not touch px and py. *)
Theorem C169_boost : forall cosh_c sinh_c shift k p, 0 <= k <= 1000 -> modest4 p ->
  modest (cosh_c (fneg shift)) -> modest (sinh_c (fneg shift)) ->
  within k (val (cosh_c (fneg shift))) (cosh (val shift)) -> within k (val (sinh_c (fneg shift))) (- sinh (val shift)) ->
  let q := f_shift_rapidity cosh_c sinh_c shift p in
  let E := cosh (val shift) * val (me p) + sinh (val shift) * val (mz p) in
  let Z := cosh (val shift) * val (mz p) + sinh (val shift) * val (me p) in
  mx q = mx p /\ my q = my p /\ fin (mz q) /\ fin (me q)
  /\ Rabs (val (me q) - E) <= (k + 3) * u * (Rabs (cosh (val shift) * val (me p)) + Rabs (sinh (val shift) * val (mz p))) + 3 * u * min_normal
  /\ Rabs (val (mz q) - Z) <= (k + 3) * u * (Rabs (cosh (val shift) * val (mz p)) + Rabs (sinh (val shift) * val (me p))) + 3 * u * min_normal.
Proof.
  intros cosh_c sinh_c shift k p K (_ & _ & Hz & He) Hc Hs WC WS. cbv zeta.
  destruct (diff_err k _ _ _ _ _ _ K Hc Hs He Hz WC WS) as (F1 & D1). destruct (diff_err k _ _ _ _ _ _ K Hc Hs Hz He WC WS) as (F2 & D2).
  unfold f_shift_rapidity. cbn [mx my mz me fst snd]. fold (mx p) (my p) (mz p) (me p).
  repeat split; try assumption.
  - replace (cosh (val shift) * val (me p) + sinh (val shift) * val (mz p)) with (cosh (val shift) * val (me p) - - sinh (val shift) * val (mz p)) by ring.
    eapply Rle_trans; [exact D1|]. rewrite Ropp_mult_distr_l_reverse, Rabs_Ropp. apply Rle_refl.
  - replace (cosh (val shift) * val (mz p) + sinh (val shift) * val (me p)) with (cosh (val shift) * val (mz p) - - sinh (val shift) * val (me p)) by ring.
    eapply Rle_trans; [exact D2|]. rewrite Ropp_mult_distr_l_reverse, Rabs_Ropp. apply Rle_refl.
Qed.

(** The same for a rotation. *)
Theorem C169_rotation : forall cexp shift k p, 0 <= k <= 1000 -> modest4 p ->
  modest (fst (cexp shift)) -> modest (snd (cexp shift)) ->
  within k (val (fst (cexp shift))) (cos (val shift)) -> within k (val (snd (cexp shift))) (sin (val shift)) ->
  let q := f_shift_phi cexp shift p in
  let X := cos (val shift) * val (mx p) - sin (val shift) * val (my p) in
  let Y := cos (val shift) * val (my p) + sin (val shift) * val (mx p) in
  mz q = mz p /\ me q = me p /\ fin (mx q) /\ fin (my q)
  /\ Rabs (val (mx q) - X) <= (k + 3) * u * (Rabs (cos (val shift) * val (mx p)) + Rabs (sin (val shift) * val (my p))) + 3 * u * min_normal
  /\ Rabs (val (my q) - Y) <= (k + 3) * u * (Rabs (cos (val shift) * val (my p)) + Rabs (sin (val shift) * val (mx p))) + 3 * u * min_normal.
Proof.
  intros cexp shift k p K (Hx & Hy & _ & _) Hc Hs WC WS. cbv zeta.
  destruct (diff_err k _ _ _ _ _ _ K Hc Hs Hx Hy WC WS) as (F1 & D1). destruct (sum_err k _ _ _ _ _ _ K Hc Hs Hy Hx WC WS) as (F2 & D2).
  unfold f_shift_phi, cmul. cbn [mx my mz me fst snd]. fold (mx p) (my p) (mz p) (me p).
  repeat split; try assumption.
Qed.

(** * C168: shifting by zero *)

Notation f0 := fzero (only parsing).
Notation f1 := fone (only parsing).

Lemma val_f1 : val f1 = 1. Proof. exact (proj1 (lit_int 1 ltac:(lia))). Qed.

Lemma mul_one : forall x, fin x -> fin (fmul f1 x) /\ val (fmul f1 x) = val x.
Proof.
  intros x Hx. assert (E : nearest (val f1 * val x) = val x) by (rewrite val_f1, Rmult_1_l; apply nearest_id, val_fmt).
  destruct (fmul_ok f1 x eq_refl Hx) as (V & F & _); [rewrite E; apply val_lt|]. split; [exact F | congruence].
Qed.
Lemma mul_zero : forall z x, fin z -> val z = 0 -> fin x -> fin (fmul z x) /\ val (fmul z x) = 0.
Proof.
  intros z x Hz Z Hx. assert (E : nearest (val z * val x) = 0) by (rewrite Z, Rmult_0_l; apply nearest_0).
  destruct (fmul_ok z x Hz Hx) as (V & F & _); [rewrite E, Rabs_R0; apply bpow_gt_0|]. split; [exact F | congruence].
Qed.
Lemma sub_zero : forall x z, fin x -> fin z -> val z = 0 -> fin (fsub x z) /\ val (fsub x z) = val x.
Proof.
  intros x z Hx Hz Z. assert (E : nearest (val x - val z) = val x) by (rewrite Z, Rminus_0_r; apply nearest_id, val_fmt).
  destruct (fsub_ok x z Hx Hz) as (V & F & _); [rewrite E; apply val_lt|]. split; [exact F | congruence].
Qed.
Lemma add_zero : forall x z, fin x -> fin z -> val z = 0 -> fin (fadd x z) /\ val (fadd x z) = val x.
Proof.
  intros x z Hx Hz Z. assert (E : nearest (val x + val z) = val x) by (rewrite Z, Rplus_0_r; apply nearest_id, val_fmt).
  destruct (fadd_ok x z Hx Hz) as (V & F); [rewrite E; apply val_lt|]. split; [exact F | congruence].
Qed.

(** The two momenta have the same finite components. *)
Definition same_values (p q : fmom) : Prop :=
  fin4 q /\ val (mx q) = val (mx p) /\ val (my q) = val (my p) /\ val (mz q) = val (mz p) /\ val (me q) = val (me p).

(** cosh(-0.0) = 1.0, sinh(-0.0) = -0.0 and exp(0j) = 1+0j, as C99 Annex F (G) prescribes. *)
Theorem C168_finite : forall cosh_c sinh_c cexp p,
  cosh_c (fneg f0) = f1 -> sinh_c (fneg f0) = fneg f0 -> cexp f0 = (f1, f0) -> fin4 p ->
  same_values p (f_shift_rapidity cosh_c sinh_c f0 p) /\ same_values p (f_shift_phi cexp f0 p).
Proof.
  intros cosh_c sinh_c cexp [[[x y] z] e] HC HS HE (Hx & Hy & Hz & He). cbn [mx my mz me fst snd] in *.
  assert (Z0 : val f0 = 0) by reflexivity. assert (Z1 : val (fneg f0) = 0) by reflexivity.
  assert (P1 : fin f0) by reflexivity. assert (P2 : fin (fneg f0)) by reflexivity.
  assert (Sub : forall w a b, fin w -> val w = 0 -> fin a -> fin b -> fin (fsub (fmul f1 a) (fmul w b)) /\ val (fsub (fmul f1 a) (fmul w b)) = val a).
  { intros w a b Hw W Ha Hb. destruct (mul_one a Ha) as [A1 A2]. destruct (mul_zero w b Hw W Hb) as [B1 B2].
    destruct (sub_zero _ _ A1 B1 B2). split; [assumption | congruence]. }
  assert (Add : forall w a b, fin w -> val w = 0 -> fin a -> fin b -> fin (fadd (fmul f1 a) (fmul w b)) /\ val (fadd (fmul f1 a) (fmul w b)) = val a).
  { intros w a b Hw W Ha Hb. destruct (mul_one a Ha) as [A1 A2]. destruct (mul_zero w b Hw W Hb) as [B1 B2].
    destruct (add_zero _ _ A1 B1 B2). split; [assumption | congruence]. }
  split.
  - unfold f_shift_rapidity. rewrite HC, HS. unfold same_values, fin4. cbn [mx my mz me fst snd].
    destruct (Sub (fneg f0) z e P2 Z1 Hz He). destruct (Sub (fneg f0) e z P2 Z1 He Hz). repeat split; assumption.
  - unfold f_shift_phi. rewrite HE. unfold same_values, fin4, cmul. cbn [mx my mz me fst snd].
    destruct (Sub f0 x y P1 Z0 Hx Hy). destruct (Add f0 y x P1 Z0 Hy Hx). repeat split; assumption.
Qed.

(** One infinite component spoils its partner: a zero shift turns pz into NaN when E is infinite (and E into NaN when pz is),
    px into NaN when py is infinite and py into NaN when px is. *)
Theorem C191_infinite_partial : forall cosh_c sinh_c cexp p,
  cosh_c (fneg f0) = f1 -> sinh_c (fneg f0) = fneg f0 -> cexp f0 = (f1, f0) ->
  (infinite (me p) -> mz (f_shift_rapidity cosh_c sinh_c f0 p) = B754_nan)
  /\ (infinite (mz p) -> me (f_shift_rapidity cosh_c sinh_c f0 p) = B754_nan)
  /\ (infinite (my p) -> mx (f_shift_phi cexp f0 p) = B754_nan)
  /\ (infinite (mx p) -> my (f_shift_phi cexp f0 p) = B754_nan).
Proof.
  intros cosh_c sinh_c cexp [[[x y] z] e] HC HS HE. unfold f_shift_rapidity, f_shift_phi, cmul. rewrite HC, HS, HE. cbn [mx my mz me fst snd].
  assert (N1 : forall w s, fmul (fneg f0) w = B754_nan -> fsub s (fmul (fneg f0) w) = B754_nan) by (intros w s ->; destruct s as [[]|[]| |[]]; reflexivity).
  assert (N2 : forall s, fsub s B754_nan = B754_nan) by (intros [[]|[]| |[]]; reflexivity).
  assert (N3 : forall s, fadd s B754_nan = B754_nan) by (intros [[]|[]| |[]]; reflexivity).
  assert (I1 : forall w, infinite w -> fmul (fneg f0) w = B754_nan) by (intros w [s ->]; destruct s; reflexivity).
  assert (I2 : forall w, infinite w -> fmul f0 w = B754_nan) by (intros w [s ->]; destruct s; reflexivity).
  repeat split; intros H; rewrite ?(I1 _ H), ?(I2 _ H); auto.
Qed.

(** The general claim — a zero shift leaves every momentum unchanged — is false. *)
Theorem C191_refuted :
  ~ (forall cosh_c sinh_c p, cosh_c (fneg f0) = f1 -> sinh_c (fneg f0) = fneg f0 ->
       me p <> B754_nan -> mz p <> B754_nan -> f_shift_rapidity cosh_c sinh_c f0 p = p).
Proof.
  intros H. specialize (H (fun _ => f1) (fun x => x) (f0, f0, f1, B754_infinity false) eq_refl eq_refl ltac:(discriminate) ltac:(discriminate)).
  discriminate H.
Qed.

(** * C167: does a boost keep E >= |pz|? *)

Lemma nearest_mult_mono : forall c a b, 0 <= c -> a <= b -> nearest (c * a) <= nearest (c * b).
Proof. intros c a b C H. apply nearest_le. apply Rmult_le_compat_l; assumption. Qed.

(** Four non-negative numbers: the rounded products. *)
Lemma slow_core : forall c s e z, 0 <= s <= c -> 0 <= z <= e ->
  Rabs (nearest (nearest (c * z) - nearest (s * e))) <= nearest (nearest (c * e) - nearest (s * z)).
Proof.
  intros c s e z S Z. rewrite <- nearest_abs. apply nearest_le. apply Rabs_le.
  pose proof (nearest_mult_mono c z e ltac:(lra) (proj2 Z)). pose proof (nearest_mult_mono s z e ltac:(lra) (proj2 Z)).
  assert (nearest (s * z) <= nearest (c * z)) by (apply nearest_le, Rmult_le_compat_r; lra).
  assert (nearest (s * e) <= nearest (c * e)) by (apply nearest_le, Rmult_le_compat_r; lra). lra.
Qed.

Lemma boost_vals : forall c s e z, modest c -> modest s -> modest e -> modest z ->
  fin (fsub (fmul c e) (fmul s z)) /\ val (fsub (fmul c e) (fmul s z)) = nearest (nearest (val c * val e) - nearest (val s * val z)).
Proof.
  intros c s e z Hc Hs He Hz. destruct (prod_fl c e Hc He) as (F1 & V1 & B1). destruct (prod_fl s z Hs Hz) as (F2 & V2 & B2).
  pose proof pow1000. assert (0 < 2 ^ 1000) by (apply pow_lt; lra). destruct (fsub_ok _ _ F1 F2) as (V & F & _).
  { apply no_overflow. unfold Rminus. eapply Rle_trans; [apply Rabs_triang|]. rewrite Rabs_Ropp. lra. }
  split; [exact F|]. rewrite V, V1, V2. reflexivity.
Qed.

(** Slowing a particle down along the beam — or turning it round — keeps E >= |pz|, whatever the rounding, as long as the
    library's cosh is not below |sinh|. *)
Theorem C167_slowing_partial : forall cosh_c sinh_c shift p, modest4 p ->
  modest (cosh_c (fneg shift)) -> modest (sinh_c (fneg shift)) -> Rabs (val (sinh_c (fneg shift))) <= val (cosh_c (fneg shift)) ->
  Rabs (val (mz p)) <= val (me p) -> 0 <= val (sinh_c (fneg shift)) * val (mz p) ->
  let q := f_shift_rapidity cosh_c sinh_c shift p in Rabs (val (mz q)) <= val (me q).
Proof.
  intros cosh_c sinh_c shift [[[x y] z] e] (_ & _ & Hz & He) Hc Hs HS HE HP. cbv zeta. unfold f_shift_rapidity. cbn [mx my mz me fst snd] in *.
  set (c := cosh_c (fneg shift)) in *. set (s := sinh_c (fneg shift)) in *.
  destruct (boost_vals c s e z Hc Hs He Hz) as (_ & ->). destruct (boost_vals c s z e Hc Hs Hz He) as (_ & ->).
  pose proof (slow_core (val c) (Rabs (val s)) (val e) (Rabs (val z)) ltac:(split; [apply Rabs_pos | exact HS]) ltac:(split; [apply Rabs_pos | exact HE])) as H.
  rewrite <- Rabs_mult, (Rabs_pos_eq _ HP) in H. eapply Rle_trans; [|exact H]. apply Req_le.
  assert (E0 : 0 <= val e) by (eapply Rle_trans; [apply Rabs_pos | exact HE]).
  destruct (Rle_lt_dec 0 (val z)) as [Z|Z].
  - rewrite (Rabs_pos_eq (val z)) by exact Z. destruct (Rle_lt_dec 0 (val s)) as [S|S]; [rewrite (Rabs_pos_eq (val s)) by exact S; reflexivity|].
    assert (Z0 : val z = 0) by nra. rewrite Z0, !Rmult_0_r, nearest_0, !Rminus_0_l, !nearest_opp, !Rabs_Ropp, <- !nearest_abs, !Rabs_mult, Rabs_Rabsolu. reflexivity.
  - rewrite (Rabs_left (val z)) by exact Z. assert (S : val s <= 0) by nra. rewrite (Rabs_left1 (val s)) by exact S.
    rewrite Ropp_mult_distr_r_reverse, Ropp_mult_distr_l_reverse, !nearest_opp.
    replace (- nearest (val c * val z) - - nearest (val s * val e)) with (- (nearest (val c * val z) - nearest (val s * val e))) by ring.
    rewrite nearest_opp, Rabs_Ropp. reflexivity.
Qed.

(** A particle along the beam with E = |pz| keeps E = |pz| exactly, in both directions. *)
Theorem C167_light_partial : forall cosh_c sinh_c shift p, modest4 p ->
  modest (cosh_c (fneg shift)) -> modest (sinh_c (fneg shift)) -> Rabs (val (sinh_c (fneg shift))) <= val (cosh_c (fneg shift)) ->
  Rabs (val (mz p)) = val (me p) ->
  let q := f_shift_rapidity cosh_c sinh_c shift p in Rabs (val (mz q)) = val (me q).
Proof.
  intros cosh_c sinh_c shift [[[x y] z] e] (_ & _ & Hz & He) Hc Hs HS HE. cbv zeta. unfold f_shift_rapidity. cbn [mx my mz me fst snd] in *.
  set (c := cosh_c (fneg shift)) in *. set (s := sinh_c (fneg shift)) in *.
  destruct (boost_vals c s e z Hc Hs He Hz) as (_ & ->). destruct (boost_vals c s z e Hc Hs Hz He) as (_ & ->).
  assert (E0 : 0 <= val e) by (rewrite <- HE; apply Rabs_pos).
  assert (G : forall t, Rabs t <= val c -> 0 <= nearest (nearest (val c * val e) - nearest (t * val e))).
  { intros t T. rewrite <- nearest_0. apply nearest_le. assert (nearest (t * val e) <= nearest (val c * val e)); [|lra].
    apply nearest_le, Rmult_le_compat_r; [exact E0|]. eapply Rle_trans; [apply Rle_abs | exact T]. }
  destruct (Rle_lt_dec 0 (val z)) as [Z|Z].
  - rewrite (Rabs_pos_eq _ Z) in HE. rewrite HE. apply Rabs_pos_eq, G, HS.
  - rewrite (Rabs_left _ Z) in HE. replace (val z) with (- val e) by lra. rewrite !Ropp_mult_distr_r_reverse, !nearest_opp.
    replace (- nearest (val c * val e) - nearest (val s * val e)) with (- (nearest (val c * val e) - - nearest (val s * val e))) by ring.
    rewrite nearest_opp, Rabs_Ropp. apply Rabs_pos_eq.
    replace (- nearest (val s * val e)) with (nearest (- val s * val e)) by (rewrite Ropp_mult_distr_l_reverse; apply nearest_opp).
    apply G. rewrite Rabs_Ropp. exact HS.
Qed.

Lemma within0 : forall x, within 0 x x.
Proof. intros x. unfold within. rewrite Rminus_diag_eq by reflexivity. rewrite Rabs_R0, Rmult_0_l, Rmult_0_l. apply Rle_refl. Qed.

(** In general |pz| exceeds E by no more than a few roundings. *)
Theorem C167_bound_partial : forall cosh_c sinh_c shift p, modest4 p ->
  modest (cosh_c (fneg shift)) -> modest (sinh_c (fneg shift)) -> Rabs (val (sinh_c (fneg shift))) <= val (cosh_c (fneg shift)) ->
  Rabs (val (mz p)) <= val (me p) ->
  let q := f_shift_rapidity cosh_c sinh_c shift p in
  Rabs (val (mz q)) <= val (me q) + 12 * u * (val (cosh_c (fneg shift)) * val (me p)) + 6 * u * min_normal.
Proof.
  intros cosh_c sinh_c shift [[[x y] z] e] (_ & _ & Hz & He) Hc Hs HS HE. cbv zeta. unfold f_shift_rapidity. cbn [mx my mz me fst snd] in *.
  set (c := cosh_c (fneg shift)) in *. set (s := sinh_c (fneg shift)) in *. pose proof u_b as [U0 _].
  destruct (diff_err 0 c s e z _ _ ltac:(lra) Hc Hs He Hz (within0 _) (within0 _)) as (_ & D1).
  destruct (diff_err 0 c s z e _ _ ltac:(lra) Hc Hs Hz He (within0 _) (within0 _)) as (_ & D2).
  assert (E0 : 0 <= val e) by (eapply Rle_trans; [apply Rabs_pos | exact HE]). assert (C0 : 0 <= val c) by (eapply Rle_trans; [apply Rabs_pos | exact HS]).
  assert (B : forall a b, Rabs a <= val c -> Rabs b <= val e -> Rabs (a * b) <= val c * val e) by (intros; rewrite Rabs_mult; apply Rmult_le_compat; auto using Rabs_pos).
  assert (ce : Rabs (val c) <= val c) by (rewrite Rabs_pos_eq by exact C0; apply Rle_refl). assert (ee : Rabs (val e) <= val e) by (rewrite Rabs_pos_eq by exact E0; apply Rle_refl).
  pose proof (B _ _ ce ee) as B1. pose proof (B _ _ HS HE) as B2. pose proof (B _ _ ce HE) as B3. pose proof (B _ _ HS ee) as B4.
  assert (K : Rabs (val c * val z - val s * val e) <= val c * val e - val s * val z).
  { apply Rabs_le. assert (val s <= val c /\ - val c <= val s) as [S1 S2] by (destruct (Rabs_le_between (val s) (val c)) as [Q _]; specialize (Q HS); lra).
    assert (val z <= val e /\ - val e <= val z) as [Z1 Z2] by (destruct (Rabs_le_between (val z) (val e)) as [Q _]; specialize (Q HE); lra).
    split; [assert (0 <= (val c - val s) * (val e + val z)) by (apply Rmult_le_pos; lra); lra | assert (0 <= (val c + val s) * (val e - val z)) by (apply Rmult_le_pos; lra); lra]. }
  set (M := val c * val e) in *. set (q1 := val (fsub (fmul c e) (fmul s z))) in *. set (q2 := val (fsub (fmul c z) (fmul s e))) in *.
  assert (T1 : (0 + 3) * u * (Rabs M + Rabs (val s * val z)) <= 6 * u * M).
  { replace (6 * u * M) with ((0 + 3) * u * (M + M)) by ring. apply Rmult_le_compat_l; [lra|]. lra. }
  assert (T2 : (0 + 3) * u * (Rabs (val c * val z) + Rabs (val s * val e)) <= 6 * u * M).
  { replace (6 * u * M) with ((0 + 3) * u * (M + M)) by ring. apply Rmult_le_compat_l; [lra|]. lra. }
  replace q2 with ((q2 - (val c * val z - val s * val e)) + (val c * val z - val s * val e)) by ring.
  eapply Rle_trans; [apply Rabs_triang|]. assert (L : M - val s * val z - q1 <= Rabs (q1 - (M - val s * val z))) by (rewrite Rabs_minus_sym; apply Rle_abs). lra.
Qed.

(** ** A boost by 0.5 that makes |pz| exceed E *)

Lemma derive_exp_n : forall n x, Derive_n exp n x = exp x.
Proof. induction n as [|n IH]; intros x; [reflexivity|]. cbn [Derive_n]. rewrite (Derive_ext _ exp) by (intros; apply IH). apply is_derive_unique. apply is_derive_exp. Qed.
Lemma ex_derive_exp_n : forall n x, ex_derive_n exp n x.
Proof. intros [|n] x; [exact I|]. cbn [ex_derive_n]. apply (ex_derive_ext exp); [intros; symmetry; apply derive_exp_n|]. eexists. apply is_derive_exp. Qed.
Fixpoint term (x : R) (m : nat) : R := match m with O => 1 | S k => term x k * x / INR (S k) end.
Lemma term_ok : forall x m, term x m = x ^ m / INR (fact m).
Proof.
  intros x m. induction m as [|m IH]; [cbn; field|]. cbn [term]. rewrite IH. change (fact (S m)) with (S m * fact m)%nat. rewrite mult_INR. cbn [pow].
  field. split; [apply INR_fact_neq_0 | apply not_0_INR; lia].
Qed.
Lemma exp_taylor : forall x n, 0 < x -> exists z, 0 < z < x /\ exp x = sum_f_R0 (term x) n + term x (S n) * exp z.
Proof.
  intros x n Hx. destruct (Taylor_Lagrange exp n 0 x Hx) as (z & Hz & E); [intros; apply ex_derive_exp_n|]. exists z. split; [exact Hz|]. rewrite E. rewrite Rminus_0_r, derive_exp_n, term_ok. f_equal.
  apply sum_eq. intros i _. rewrite derive_exp_n, exp_0, term_ok, Rmult_1_r. reflexivity.
Qed.

(** The terms of the series at 1/2 are the inverses of the integers 2^m m!. *)
Fixpoint den (m : nat) : Z := match m with O => 1%Z | S k => (den k * (2 * Z.of_nat (S k)))%Z end.
Lemma den_pos : forall m, (0 < den m)%Z.
Proof. induction m as [|m IH]; [reflexivity|]. change (den (S m)) with (den m * (2 * Z.of_nat (S m)))%Z. lia. Qed.
Lemma term_half : forall m, term (/ 2) m = / IZR (den m).
Proof.
  induction m as [|m IH]; [cbn; field|]. change (term (/ 2) (S m)) with (term (/ 2) m * / 2 / INR (S m)).
  change (den (S m)) with (den m * (2 * Z.of_nat (S m)))%Z. rewrite IH, INR_IZR_INZ, !mult_IZR. pose proof (den_pos m) as D. apply IZR_lt in D.
  assert (0 < IZR (Z.of_nat (S m))) by (apply IZR_lt; lia). field. split; lra.
Qed.

Definition sc : R := / IZR (2 ^ 70).
Lemma exp_half : 1946466517087134098890 * sc <= exp (/ 2) <= 1946466517087134098942 * sc.
Proof.
  destruct (exp_taylor (/ 2) 16 ltac:(lra)) as (z & Hz & E). rewrite E. clear E.
  assert (Z1 : 1 < exp z) by (rewrite <- exp_0; apply exp_increasing; lra).
  assert (Z2 : exp z <= 3) by (apply (Rle_trans _ (exp 1)); [left; apply exp_increasing; lra | apply exp_le_3]).
  unfold sum_f_R0. rewrite !term_half. cbv [den sc Z.of_nat Pos.of_succ_nat Pos.succ Z.mul Pos.mul Pos.add Z.pow Z.pow_pos Pos.iter].
  set (w := exp z) in *. clearbody w. lra.
Qed.

Lemma exp_mhalf : 716065014564938579171 * sc <= exp (- / 2) <= 716065014564938579191 * sc.
Proof.
  destruct exp_half as [L U]. rewrite exp_Ropp. pose proof (exp_pos (/ 2)) as P. set (x := exp (/ 2)) in *. clearbody x.
  assert (I : x * / x = 1) by (apply Rinv_r; lra). assert (J : 0 < / x) by (apply Rinv_0_lt_compat, P). set (y := / x) in *. clearbody y.
  assert (B1 : 1946466517087134098890 * sc * y <= 1) by (rewrite <- I; apply Rmult_le_compat_r; lra).
  assert (B2 : 1 <= 1946466517087134098942 * sc * y) by (rewrite <- I; apply Rmult_le_compat_r; lra).
  revert B1 B2. unfold sc. change (2 ^ 70)%Z with 1180591620717411303424%Z. intros B1 B2. split; lra.
Qed.

Lemma cosh_half : 1331265765826036339030 * sc <= cosh (/ 2) <= 1331265765826036339067 * sc.
Proof. destruct exp_half, exp_mhalf. unfold cosh. split; assert (0 < sc) by (unfold sc; apply Rinv_0_lt_compat, IZR_lt; reflexivity); lra. Qed.
Lemma sinh_half : 615200751261097759849 * sc <= sinh (/ 2) <= 615200751261097759886 * sc.
Proof. destruct exp_half, exp_mhalf. unfold sinh. split; assert (0 < sc) by (unfold sc; apply Rinv_0_lt_compat, IZR_lt; reflexivity); lra. Qed.

Lemma lit_near : forall m e, Rabs (IZR m * bpow radix2 e) <= huge -> nearest (IZR m * bpow radix2 e) = val (lit m e).
Proof.
  intros m e H. pose proof (binary_normalize_correct 53 1024 prec_pos prec_emax mode_NE m e false) as C. fold (lit m e) in C.
  cbv zeta in C. repeat match type of C with context [round ?b ?f ?r ?x] => change (round b f r x) with (nearest x) in C end.
  change (F2R (Float radix2 m e)) with (IZR m * bpow radix2 e) in C. rewrite Rlt_bool_true in C by (apply no_overflow, H). symmetry. exact (proj1 C).
Qed.
Lemma nearest_between : forall a b x v, a <= x <= b -> nearest a = v -> nearest b = v -> nearest x = v.
Proof. intros a b x v [A B] <- E. apply Rle_antisym; [rewrite <- E; apply nearest_le, B | apply nearest_le, A]. Qed.
Lemma sc_bpow : sc = bpow radix2 (-70). Proof. reflexivity. Qed.
Lemma huge_big : forall m, (Z.abs m < 2 ^ 100)%Z -> Rabs (IZR m * bpow radix2 (-70)) <= huge.
Proof.
  intros m H. rewrite Rabs_mult, <- abs_IZR, (Rabs_pos_eq (bpow radix2 (-70))) by apply bpow_ge_0. rewrite huge_bpow.
  apply Rle_trans with (bpow radix2 100 * bpow radix2 (-70)); [|rewrite <- bpow_plus; apply bpow_le; lia].
  apply Rmult_le_compat_r; [apply bpow_ge_0|]. rewrite <- (IZR_Zpower radix2) by lia. apply IZR_le. change (radix2 ^ 100)%Z with (2 ^ 100)%Z. lia.
Qed.

(** The doubles nearest to cosh(1/2) and sinh(1/2). *)
Definition c_half : f64 := lit 5078375876716752 (-52).
Definition s_half : f64 := lit 4693609247292311 (-53).
Lemma near_cosh : nearest (cosh (/ 2)) = val c_half.
Proof.
  pose proof cosh_half as H. rewrite sc_bpow in H. apply (nearest_between _ _ _ _ H); (rewrite lit_near by (apply huge_big; lia); f_equal; apply B2SF_inj; vm_compute; reflexivity).
Qed.
Lemma near_sinh : nearest (sinh (/ 2)) = val s_half.
Proof.
  pose proof sinh_half as H. rewrite sc_bpow in H. apply (nearest_between _ _ _ _ H); (rewrite lit_near by (apply huge_big; lia); f_equal; apply B2SF_inj; vm_compute; reflexivity).
Qed.

(** A particle moving along the beam with E = 63.609375 and pz the next double below. *)
Definition fast : fmom := (fzero, fzero, lit 8952223673352191 (-47), lit 4071 (-6)).

Lemma val_eq_f64 : forall x y : f64, fin x -> fin y -> val y <> 0 -> val x = val y -> x = y.
Proof. intros x y Fx Fy Y E. apply B2R_inj; [| |exact E]; destruct x, y; cbn in *; try discriminate; try reflexivity; exfalso; unfold val in *; cbn in *; congruence. Qed.

(** The general claim is false even when cosh and sinh are correctly rounded: boosting [fast], whose energy is above its
    pz, by 0.5 gives a particle whose |pz| is above its energy, hence of negative mass. *)
Theorem C167_refuted : forall cosh_c sinh_c, correct_at cosh_c cosh (fneg fhalf) -> correct_at sinh_c sinh (fneg fhalf) ->
  let q := f_shift_rapidity cosh_c sinh_c fhalf fast in
  fin4 fast /\ Rabs (val (mz fast)) < val (me fast) /\ fin4 q /\ val (me q) < Rabs (val (mz q))
  /\ val (mx q) = 0 /\ val (my q) = 0.
Proof.
  intros cosh_c sinh_c [FC VC] [FS VS]. cbv zeta.
  assert (V : val (fneg fhalf) = - / 2) by (rewrite fneg_ok; unfold fhalf; rewrite (proj1 (lit_ok 1 (-1) ltac:(lia) ltac:(lia))); change (bpow radix2 (-1)) with (/ 2); lra).
  rewrite V in VC, VS.
  replace (cosh (- / 2)) with (cosh (/ 2)) in VC by (unfold cosh; rewrite Ropp_involutive; lra). rewrite near_cosh in VC.
  replace (sinh (- / 2)) with (- sinh (/ 2)) in VS by (unfold sinh; rewrite Ropp_involutive; lra). rewrite nearest_opp, near_sinh in VS.
  assert (NC : val c_half <> 0) by (unfold c_half; rewrite (proj1 (lit_ok 5078375876716752 (-52) ltac:(lia) ltac:(lia))); apply Rmult_integral_contrapositive_currified; [apply IZR_neq; lia | apply Rgt_not_eq, bpow_gt_0]).
  assert (NS : val (fneg s_half) <> 0) by (rewrite fneg_ok; unfold s_half; rewrite (proj1 (lit_ok 4693609247292311 (-53) ltac:(lia) ltac:(lia))); apply Ropp_neq_0_compat, Rmult_integral_contrapositive_currified; [apply IZR_neq; lia | apply Rgt_not_eq, bpow_gt_0]).
  apply (val_eq_f64 _ c_half FC eq_refl NC) in VC. rewrite <- fneg_ok in VS. apply (val_eq_f64 _ (fneg s_half) FS eq_refl NS) in VS.
  unfold f_shift_rapidity. rewrite VC, VS. clear.
  assert (E1 : fsub (fmul c_half (me fast)) (fmul (fneg s_half) (mz fast)) = lit 7379860795160496 (-46)) by (apply B2SF_inj; vm_compute; reflexivity).
  assert (E2 : fsub (fmul c_half (mz fast)) (fmul (fneg s_half) (me fast)) = lit 7379860795160497 (-46)) by (apply B2SF_inj; vm_compute; reflexivity).
  rewrite E1, E2. unfold fin4, fast. cbn [mx my mz me fst snd].
  rewrite (proj1 (lit_ok 8952223673352191 (-47) ltac:(lia) ltac:(lia))), (proj1 (lit_ok 4071 (-6) ltac:(lia) ltac:(lia))).
  rewrite (proj1 (lit_ok 7379860795160496 (-46) ltac:(lia) ltac:(lia))), (proj1 (lit_ok 7379860795160497 (-46) ltac:(lia) ltac:(lia))).
  rewrite !Rabs_mult, !(Rabs_pos_eq (IZR _)), !(Rabs_pos_eq (bpow _ _)) by (apply bpow_ge_0 || (apply IZR_le; lia)).
  change (bpow radix2 (-47)) with (/ IZR (2 ^ 47)). change (bpow radix2 (-6)) with (/ IZR (2 ^ 6)). change (bpow radix2 (-46)) with (/ IZR (2 ^ 46)).
  cbv [Z.pow Z.pow_pos Pos.iter Z.mul Pos.mul].
  repeat split; try reflexivity; lra.
Qed.

(** The hypotheses above are met: correctly rounded values exist at 1/2 and are right to one unit, and a particle going
    against the boost is slowed down. *)
Example C167_case :
  correct_at (fun _ => c_half) cosh (fneg fhalf) /\ correct_at (fun _ => fneg s_half) sinh (fneg fhalf)
  /\ modest c_half /\ modest (fneg s_half) /\ Rabs (val (fneg s_half)) <= val c_half
  /\ modest4 fast /\ modest4 (fzero, fzero, lit (-3) 0, lit 5 0)
  /\ 0 <= val (fneg s_half) * val (mz (fzero, fzero, lit (-3) 0, lit 5 0))
  /\ Rabs (val (mz (fzero, fzero, lit (-3) 0, lit 5 0))) <= val (me (fzero, fzero, lit (-3) 0, lit 5 0))
  /\ Rabs (val (mz (fone, fone, lit (-3) 0, lit 3 0))) = val (me (fone, fone, lit (-3) 0, lit 3 0)).
Proof.
  assert (V : val (fneg fhalf) = - / 2) by (rewrite fneg_ok; unfold fhalf; rewrite (proj1 (lit_ok 1 (-1) ltac:(lia) ltac:(lia))); change (bpow radix2 (-1)) with (/ 2); lra).
  assert (VC : val c_half = 5078375876716752 * / IZR (2 ^ 52)) by (exact (proj1 (lit_ok 5078375876716752 (-52) ltac:(lia) ltac:(lia)))).
  assert (VS : val s_half = 4693609247292311 * / IZR (2 ^ 53)) by (exact (proj1 (lit_ok 4693609247292311 (-53) ltac:(lia) ltac:(lia)))).
  assert (P : 128 <= 2 ^ 500) by (apply (Rle_trans _ (2 ^ 7)); [simpl; lra | apply Rle_pow; [lra | lia]]).
  assert (M0 : modest fzero) by (split; [reflexivity | change (val fzero) with 0; rewrite Rabs_R0; lra]).
  assert (M : forall m, (Z.abs m < 100)%Z -> modest (lit m 0)).
  { intros m Hm. destruct (lit_int m ltac:(lia)) as (A & B). split; [exact B|]. rewrite A, <- abs_IZR. eapply Rle_trans; [|exact P]. apply IZR_le. lia. }
  assert (BC : Rabs (val c_half) <= 2) by (rewrite VC; apply Rabs_le; cbv [Z.pow Z.pow_pos Pos.iter Z.mul Pos.mul]; lra).
  assert (BS : Rabs (val (fneg s_half)) <= 1) by (rewrite fneg_ok, Rabs_Ropp, VS; apply Rabs_le; cbv [Z.pow Z.pow_pos Pos.iter Z.mul Pos.mul]; lra).
  cbn [mx my mz me fst snd]. rewrite (proj1 (lit_int (-3) ltac:(lia))), (proj1 (lit_int 5 ltac:(lia))), (proj1 (lit_int 3 ltac:(lia))).
  repeat split.
  all: try (apply M; reflexivity). all: try (apply M0).
  - rewrite V. replace (cosh (- / 2)) with (cosh (/ 2)) by (unfold cosh; rewrite Ropp_involutive; lra). symmetry. apply near_cosh.
  - rewrite V. replace (sinh (- / 2)) with (- sinh (/ 2)) by (unfold sinh; rewrite Ropp_involutive; lra). rewrite nearest_opp, near_sinh. apply fneg_ok.
  - lra.
  - lra.
  - eapply Rle_trans; [exact BS|]. rewrite VC. cbv [Z.pow Z.pow_pos Pos.iter Z.mul Pos.mul]. lra.
  - unfold fast. cbn [mx my mz me fst snd]. rewrite (proj1 (lit_ok 8952223673352191 (-47) ltac:(lia) ltac:(lia))). change (bpow radix2 (-47)) with (/ IZR (2 ^ 47)). apply Rabs_le. cbv [Z.pow Z.pow_pos Pos.iter Z.mul Pos.mul]. lra.
  - unfold fast. cbn [mx my mz me fst snd]. rewrite (proj1 (lit_ok 4071 (-6) ltac:(lia) ltac:(lia))). change (bpow radix2 (-6)) with (/ IZR (2 ^ 6)). apply Rabs_le. cbv [Z.pow Z.pow_pos Pos.iter Z.mul Pos.mul]. lra.
  - rewrite fneg_ok, VS. cbv [Z.pow Z.pow_pos Pos.iter Z.mul Pos.mul]. lra.
  - apply Rabs_le. lra.
  - rewrite Rabs_left; lra.
Qed.

(** C169 at shift 1/2 with correctly rounded cosh and sinh: the errors are within 4 units. *)
Example C169_case : within 1 (val c_half) (cosh (/ 2)) /\ within 1 (val (fneg s_half)) (- sinh (/ 2)) /\ val fhalf = / 2.
Proof.
  assert (V : val fhalf = / 2) by (unfold fhalf; rewrite (proj1 (lit_ok 1 (-1) ltac:(lia) ltac:(lia))); change (bpow radix2 (-1)) with (/ 2); lra).
  assert (MN : min_normal <= / 4).
  { unfold min_normal. apply Rinv_le_contravar; [lra|]. apply (Rle_trans _ (2 ^ 2)); [simpl; lra | apply Rle_pow; [lra | lia]]. }
  assert (W : forall x, / 4 <= Rabs x -> within 1 (nearest x) x).
  { intros x H. unfold within. rewrite Rmult_1_l. destruct (rel_normal x ltac:(lra)) as (r & Hr & ->).
    replace (x * (1 + r) - x) with (r * x) by ring. rewrite Rabs_mult. apply Rmult_le_compat_r; [apply Rabs_pos | exact Hr]. }
  destruct cosh_half as [C1 _]. destruct sinh_half as [S1 _]. assert (SC : sc = / 1180591620717411303424) by reflexivity. rewrite SC in *.
  split; [rewrite <- near_cosh; apply W; rewrite Rabs_pos_eq; lra|]. split; [|exact V].
  rewrite fneg_ok, <- near_sinh, <- nearest_opp. apply W. rewrite Rabs_Ropp, Rabs_pos_eq; lra.
Qed.

Example C168_case : fin4 fast /\ (fun _ : f64 => fone) (fneg fzero) = fone /\ (fun x : f64 => x) (fneg fzero) = fneg fzero
  /\ same_values fast (f_shift_rapidity (fun _ => fone) (fun x => x) fzero fast) /\ same_values fast (f_shift_phi (fun _ => (fone, fzero)) fzero fast).
Proof.
  assert (F : fin4 fast) by (repeat split).
  destruct (C168_finite (fun _ => fone) (fun x => x) (fun _ => (fone, fzero)) fast eq_refl eq_refl eq_refl F). repeat split; assumption || apply F || tauto.
Qed.

Print Assumptions C169_boost.
Print Assumptions C169_rotation.
Print Assumptions C168_finite.
Print Assumptions C191_infinite_partial.
Print Assumptions C191_refuted.
Print Assumptions C167_slowing_partial.
Print Assumptions C167_light_partial.
Print Assumptions C167_bound_partial.
Print Assumptions C167_refuted.
