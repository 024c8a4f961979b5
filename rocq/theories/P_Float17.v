(** weighted_centroid in IEEE doubles (C203, C204). *)
From Coq Require Import ZArith Reals List Bool Lia Lra Permutation.
From Flocq Require Import Core BinarySingleNaN.
From Verif Require Import Prelude SpecReal RealBase SpecIEEE Floats FloatBase FloatOps Floats2 Floats3 P_Float P_Float3 P_Float6 P_Float13.
From Verif Require Import Floats7.
Import ListNotations.
Open Scope R_scope.

(** The exact weighted sum of the coordinates. *)
Definition weighted_total (rs ws : list f64) : R := fold_right Rplus 0 (map (fun p => val (fst p) * val (snd p)) (combine rs ws)).

Lemma growth1 n : INR n * u <= / 1000 -> 1 <= (1 + u) ^ n /\ (1 + u) ^ n - 1 <= 101 / 100 * (INR n * u).
Proof.
  intros H. destruct (growth2 n H) as (A & B). split; [exact A|]. set (g := (1 + u) ^ n) in *. clearbody g.
  assert (g * g = 1 + 2 * (g - 1) + (g - 1) * (g - 1)) by ring. assert (0 <= (g - 1) * (g - 1)) by (apply Rle_0_sqr). lra.
Qed.
Lemma products : forall B rs ws, 0 <= B -> B <= 2 ^ 400 -> length rs = length ws -> Forall (fun r => fin r /\ Rabs (val r) <= B) rs ->
  Forall (fun w => fin w /\ 0 <= val w <= 2 ^ 400) ws ->
  let e := u * (B * total ws) + INR (length ws) * (u * min_normal) in
  Forall fin (map2 fmul rs ws) /\ length (map2 fmul rs ws) = length ws /\
  Rabs (total (map2 fmul rs ws) - weighted_total rs ws) <= e /\ total_abs (map2 fmul rs ws) <= B * total ws + e /\ 0 <= total ws /\ total_abs ws = total ws /\
  Rabs (weighted_total rs ws) <= B * total ws.
Proof.
  intros B rs ws B0 B4 HL HR. revert ws HL. pose proof u_pos as U0. pose proof mn_pos as MN.
  induction HR as [|r rs (Fr & Br) HR IH]; intros [|w ws] HL HW; try discriminate.
  - cbn. unfold total, total_abs, weighted_total. cbn. rewrite Rminus_0_r, Rabs_R0. repeat split; try constructor; lra.
  - inversion HW as [|? ? (Fw & W0 & W4) HW']; subst. destruct (IH ws ltac:(cbn in HL; lia) HW') as (F & L & E & T & P & TA & WT).
    cbn [map2 length]. rewrite S_INR. unfold total, total_abs, weighted_total in *. cbn [map combine fold_right fst snd].
    set (S := fold_right Rplus 0 (map val ws)) in *. set (n := INR (length ws)) in *.
    assert (PB : Rabs (val r * val w) <= B * val w) by (rewrite Rabs_mult, (Rabs_pos_eq (val w)) by lra; apply Rmult_le_compat_r; assumption).
    assert (PB' : B * val w <= 2 ^ 800). { change 800%nat with (400 + 400)%nat. rewrite pow_add. apply Rmult_le_compat; assumption. }
    destruct (fmul_ok r w Fr Fw) as (V & Fm & _). { apply no_overflow. eapply Rle_trans; [exact PB|]. eapply Rle_trans; [exact PB'|]. unfold huge. apply Rle_pow; [lra | lia]. }
    pose proof (nearest_err_any (val r * val w)) as N. rewrite <- V in N.
    assert (N' : Rabs (val (fmul r w) - val r * val w) <= u * (B * val w) + u * min_normal). { eapply Rle_trans; [exact N|]. apply Rplus_le_compat_r. apply Rmult_le_compat_l; lra. }
    assert (A' : Rabs (val (fmul r w)) <= B * val w + (u * (B * val w) + u * min_normal)).
    { replace (val (fmul r w)) with ((val (fmul r w) - val r * val w) + val r * val w) by ring. eapply Rle_trans; [apply Rabs_triang|]. lra. }
    split; [constructor; assumption|]. split; [cbn; lia|]. split; [|split; [|split; [lra|split]]].
    + set (a := val (fmul r w)) in *. set (b := val r * val w) in *. match goal with |- Rabs (a + ?X - (b + ?Y)) <= _ => replace (a + X - (b + Y)) with ((a - b) + (X - Y)) by ring end.
      eapply Rle_trans; [apply Rabs_triang|]. replace (B * (val w + S)) with (B * val w + B * S) by ring. lra.
    + replace (B * (val w + S)) with (B * val w + B * S) by ring. lra.
    + rewrite (Rabs_pos_eq (val w)) by lra. lra.
    + eapply Rle_trans; [apply Rabs_triang|]. replace (B * (val w + S)) with (B * val w + B * S) by ring. lra.
Qed.

Lemma quotient : forall B W S s d e1 e2, 0 < W -> 0 <= B -> Rabs S <= B * W -> Rabs (s - S) <= e1 * (B * W) -> Rabs (d - W) <= e2 * W -> 0 <= e1 -> 0 <= e2 <= / 100 ->
  0 < d /\ Rabs (s / d - S / W) <= 102 / 100 * (e1 + e2) * B.
Proof.
  intros B W S s d e1 e2 W0 B0 HS H1 H2 E1 E2.
  assert (D : 99 / 100 * W <= d). { apply Rabs_le_inv in H2. assert (e2 * W <= / 100 * W) by (apply Rmult_le_compat_r; lra). lra. }
  assert (D0 : 0 < d) by lra. split; [exact D0|].
  replace (s / d - S / W) with (((s - S) * W - S * (d - W)) / (d * W)) by (field; lra).
  unfold Rdiv. rewrite Rabs_mult, (Rabs_pos_eq (/ (d * W))) by (left; apply Rinv_0_lt_compat, Rmult_lt_0_compat; lra).
  assert (NUM : Rabs ((s - S) * W - S * (d - W)) <= (e1 + e2) * B * (W * W)).
  { unfold Rminus at 1. eapply Rle_trans; [apply Rabs_triang|]. rewrite Rabs_Ropp, !Rabs_mult, (Rabs_pos_eq W) by lra.
    assert (Rabs (s - S) * W <= e1 * (B * W) * W) by (apply Rmult_le_compat_r; lra).
    assert (Rabs S * Rabs (d - W) <= B * W * (e2 * W)) by (apply Rmult_le_compat; try apply Rabs_pos; assumption).
    replace ((e1 + e2) * B * (W * W)) with (e1 * (B * W) * W + B * W * (e2 * W)) by ring. unfold Rminus in *. lra. }
  apply Rmult_le_reg_r with (d * W); [apply Rmult_lt_0_compat; lra|]. rewrite Rmult_assoc, Rinv_l, Rmult_1_r by (apply Rgt_not_eq, Rmult_lt_0_compat; lra).
  eapply Rle_trans; [exact NUM|]. assert (X : (e1 + e2) * B * (W * W) <= (e1 + e2) * B * (102 / 100 * d * W)).
  { apply Rmult_le_compat_l; [apply Rmult_le_pos; lra|]. apply Rmult_le_compat_r; lra. }
  lra.
Qed.

(** The computed centroid of n particles whose coordinates are at most B in magnitude is within 3 n u B of the exact weighted mean of the
    stored coordinates, whatever the order of the two sums. *)
Theorem C203_accuracy : forall B rs ws c, rs <> [] -> length rs = length ws -> (Z.of_nat (length rs) <= 1048576)%Z ->
  / 2 ^ 400 <= B <= 2 ^ 400 -> Forall (fun r => fin r /\ Rabs (val r) <= B) rs ->
  Forall (fun w => fin w /\ 0 <= val w) ws -> / 2 ^ 400 <= total ws <= 2 ^ 400 ->
  f_centroid_value rs ws c ->
  fin c /\ Rabs (val c - weighted_total rs ws / total ws) <= 3 * INR (length rs) * u * B.
Proof.
  intros B rs ws c NE HL LN HB HR HW HT (tn & td & Pn & Pd & ->).
  pose proof u_pos as U0. pose proof mn_pos as MN. pose proof (ipow2_pos 400) as I4. assert (B0 : 0 < B) by lra. assert (W0 : 0 < total ws) by lra.
  assert (HW' : Forall (fun w => fin w /\ 0 <= val w <= 2 ^ 400) ws).
  { assert (G : forall l, Forall (fun w => fin w /\ 0 <= val w) l -> 0 <= total l /\ Forall (fun w => fin w /\ 0 <= val w <= total l) l).
    { induction 1 as [|w l (F & P) H (T & IH)]; [split; [unfold total; cbn; lra | constructor]|]. unfold total in *. cbn [map fold_right]. split; [lra|].
      constructor; [split; [exact F | lra]|]. eapply Forall_impl; [|exact IH]. cbv beta. intros x (Fx & Px). split; [exact Fx | lra]. }
    destruct (G ws HW) as (_ & H). eapply Forall_impl; [|exact H]. cbv beta. intros w (F & P). split; [exact F | lra]. }
  destruct (products B rs ws ltac:(lra) ltac:(lra) HL HR HW') as (Fp & Lp & Ep & Tp & _ & TA & WT).
  set (W := total ws) in *. set (S := weighted_total rs ws) in *. set (BW := B * W) in *.
  destruct (length rs) as [|m] eqn:EL; [destruct rs; [contradiction|discriminate]|].
  assert (RN : 0 <= INR m <= 1048575). { split; [apply pos_INR|]. rewrite INR_IZR_INZ. apply IZR_le. lia. }
  pose proof u_tiny as (_ & UT).
  assert (NU : INR m * u <= / 1000). { apply Rle_trans with (1048575 * / 1000000000000000); [apply Rmult_le_compat; lra | lra]. }
  destruct (growth1 m NU) as (G1 & G2). set (g := (1 + u) ^ m) in *. assert (G3 : 0 <= g - 1 <= / 100) by lra.
  rewrite <- HL in *.
  (* the underflow term is negligible *)
  assert (BW0 : / 2 ^ 800 <= BW <= 2 ^ 800).
  { split.
    - change 800%nat with (400 + 400)%nat. rewrite pow_add, Rinv_mult. apply Rmult_le_compat; lra.
    - change 800%nat with (400 + 400)%nat. rewrite pow_add. apply Rmult_le_compat; lra. }
  assert (MU : 1000000000 * min_normal <= BW).
  { eapply Rle_trans; [|apply BW0]. unfold min_normal. change 1022%nat with (62 + 160 + 800)%nat. rewrite !pow_add, !Rinv_mult.
    assert (A : 1000000000 * / 2 ^ 62 <= 1). { apply Rmult_le_reg_r with (2 ^ 62); [apply pow2_pos|]. rewrite Rmult_assoc, Rinv_l by (apply Rgt_not_eq, pow2_pos). cbn; lra. }
    assert (B' : / 2 ^ 160 <= 1). { apply Rle_trans with (/ 2 ^ 0); [apply pow_half; lia | cbn; lra]. }
    pose proof (ipow2_pos 800). pose proof (ipow2_pos 160). pose proof (ipow2_pos 62). rewrite <- !Rmult_assoc.
    apply Rle_trans with (1 * 1 * / 2 ^ 800); [|lra]. apply Rmult_le_compat_r; [lra|]. apply Rmult_le_compat; try lra. }
  set (e := u * BW + INR (Datatypes.S m) * (u * min_normal)) in *.
  assert (EE : e <= 11 / 10 * (u * BW)).
  { unfold e. rewrite S_INR. assert ((INR m + 1) * (u * min_normal) <= 1048576 * (u * (/ 1000000000 * BW))).
    { apply Rmult_le_compat; try lra. apply Rmult_le_pos; lra. apply Rmult_le_compat_l; lra. }
    replace (1048576 * (u * (/ 1000000000 * BW))) with (1048576 / 1000000000 * (u * BW)) in H by field. assert (0 <= u * BW) by (apply Rmult_le_pos; lra). lra. }
  assert (UBW : 0 <= u * BW <= / 1000 * BW) by (split; [apply Rmult_le_pos; lra | apply Rmult_le_compat_r; lra]).
  assert (HG : 2 ^ 801 <= huge) by (unfold huge; apply Rle_pow; [lra | lia]).
  assert (P801 : 2 ^ 801 = 2 * 2 ^ 800) by (change 801%nat with (1 + 800)%nat; rewrite pow_add; ring).
  (* numerator *)
  destruct (total_perm _ _ Pn) as (Q1 & Q2).
  destruct (C145_sum tn m) as (Fn & En).
  { rewrite (Permutation_length Pn). exact Lp. } { eapply Permutation_Forall; [apply Permutation_sym; exact Pn | exact Fp]. }
  { rewrite Q2. fold g. apply Rle_trans with (101 / 100 * (101 / 100 * BW)); [apply Rmult_le_compat; try lra; apply total_abs_pos | lra]. }
  rewrite Q1, Q2 in En. fold g in En.
  assert (NUM : Rabs (val (f_sum tn) - S) <= (102 / 100 * (INR m * u) + 11 / 10 * u) * BW).
  { replace (val (f_sum tn) - S) with ((val (f_sum tn) - total (map2 fmul rs ws)) + (total (map2 fmul rs ws) - S)) by ring.
    eapply Rle_trans; [apply Rabs_triang|].
    assert ((g - 1) * total_abs (map2 fmul rs ws) <= (101 / 100 * (INR m * u)) * (1002 / 1000 * BW)) by (apply Rmult_le_compat; try lra; apply total_abs_pos).
    assert (0 <= INR m * u * BW) by (apply Rmult_le_pos; [apply Rmult_le_pos; lra | lra]). lra. }
  (* denominator *)
  destruct (total_perm _ _ Pd) as (Q3 & Q4).
  assert (HH : 2 ^ 400 <= 2 ^ 800) by (apply Rle_pow; [lra | lia]).
  destruct (C145_sum td m) as (Fd & Ed).
  { rewrite (Permutation_length Pd). lia. }
  { eapply Permutation_Forall; [apply Permutation_sym; exact Pd|]. eapply Forall_impl; [|exact HW]. cbv beta. intros w (F & _). exact F. }
  { rewrite Q4, TA. fold g. apply Rle_trans with (101 / 100 * 2 ^ 400); [apply Rmult_le_compat; lra | lra]. }
  rewrite Q3, Q4, TA in Ed. fold g W in Ed.
  assert (MU0 : 0 <= INR m * u) by (apply Rmult_le_pos; lra).
  destruct (quotient B W S (val (f_sum tn)) (val (f_sum td)) (102 / 100 * (INR m * u) + 11 / 10 * u) (101 / 100 * (INR m * u)) W0 ltac:(lra) WT NUM) as (D0 & QQ).
  { eapply Rle_trans; [exact Ed|]. apply Rmult_le_compat_r; lra. } { lra. } { lra. }
  set (q := val (f_sum tn) / val (f_sum td)) in *.
  assert (SW : Rabs (S / W) <= B).
  { unfold Rdiv. rewrite Rabs_mult, (Rabs_pos_eq (/ W)) by (left; apply Rinv_0_lt_compat; exact W0). apply Rmult_le_reg_r with W; [exact W0|].
    rewrite Rmult_assoc, Rinv_l, Rmult_1_r by lra. exact WT. }
  assert (QE : 102 / 100 * (102 / 100 * (INR m * u) + 11 / 10 * u + 101 / 100 * (INR m * u)) * B <= (21 / 10 * INR m + 114 / 100) * u * B).
  { apply Rmult_le_compat_r; [lra|]. lra. }
  assert (QA : Rabs q <= 2 * B).
  { replace q with ((q - S / W) + S / W) by ring. eapply Rle_trans; [apply Rabs_triang|].
    assert ((21 / 10 * INR m + 114 / 100) * u <= / 100) by lra. assert ((21 / 10 * INR m + 114 / 100) * u * B <= / 100 * B) by (apply Rmult_le_compat_r; lra). lra. }
  destruct (fdiv_ok (f_sum tn) (f_sum td) Fn Fd ltac:(lra)) as (V & F & _).
  { apply no_overflow. fold q. eapply Rle_trans; [exact QA|]. lra. }
  split; [exact F|]. rewrite V. fold q. pose proof (nearest_err_any q) as NE'.
  assert (QB : Rabs q <= 101 / 100 * B).
  { replace q with ((q - S / W) + S / W) by ring. eapply Rle_trans; [apply Rabs_triang|].
    assert ((21 / 10 * INR m + 114 / 100) * u <= / 200) by lra. assert ((21 / 10 * INR m + 114 / 100) * u * B <= / 200 * B) by (apply Rmult_le_compat_r; lra). lra. }
  assert (MB : min_normal <= / 1000 * B).
  { assert (H4 : 1000 * min_normal <= / 2 ^ 400).
    { unfold min_normal. change 1022%nat with (62 + 560 + 400)%nat. rewrite !pow_add, !Rinv_mult.
      assert (A : 1000 * / 2 ^ 62 <= 1). { apply Rmult_le_reg_r with (2 ^ 62); [apply pow2_pos|]. rewrite Rmult_assoc, Rinv_l by (apply Rgt_not_eq, pow2_pos). cbn; lra. }
      assert (B' : / 2 ^ 560 <= 1). { apply Rle_trans with (/ 2 ^ 0); [apply pow_half; lia | cbn; lra]. }
      pose proof (ipow2_pos 560). pose proof (ipow2_pos 62). rewrite <- !Rmult_assoc.
      apply Rle_trans with (1 * 1 * / 2 ^ 400); [|lra]. apply Rmult_le_compat_r; [lra|]. apply Rmult_le_compat; try lra. }
    lra. }
  replace (nearest q - S / W) with ((nearest q - q) + (q - S / W)) by ring. eapply Rle_trans; [apply Rabs_triang|].
  assert (X1 : u * Rabs q <= u * (101 / 100 * B)) by (apply Rmult_le_compat_l; lra).
  assert (X2 : u * min_normal <= u * (/ 1000 * B)) by (apply Rmult_le_compat_l; lra).
  rewrite S_INR. replace (3 * (INR m + 1) * u * B) with (3 * (INR m * u * B) + 3 * (u * B)) by ring.
  replace ((21 / 10 * INR m + 114 / 100) * u * B) with (21 / 10 * (INR m * u * B) + 114 / 100 * (u * B)) in QE by field.
  assert (0 <= INR m * u * B) by (apply Rmult_le_pos; lra). assert (0 <= u * B) by (apply Rmult_le_pos; lra). lra.
Qed.
Print Assumptions C203_accuracy.

(** Two particles, rapidities 1 and -2 with pT 3 and 1: the hypotheses hold and the exact centroid is 1/4. *)
Example C203_case : exists c, f_centroid_value [lit 1 0; lit (-2) 0] [lit 3 0; lit 1 0] c /\
  Rabs (val c - 1 / 4) <= 12 * u.
Proof.
  destruct (lit_ok 1 0 ltac:(lia) ltac:(lia)) as (V1 & F1). destruct (lit_ok (-2) 0 ltac:(lia) ltac:(lia)) as (V2 & F2).
  destruct (lit_ok 3 0 ltac:(lia) ltac:(lia)) as (V3 & F3).
  assert (W1 : val (lit 1 0) = 1) by (rewrite V1; cbn; lra). assert (W2 : val (lit (-2) 0) = -2) by (rewrite V2; cbn; lra).
  assert (W3 : val (lit 3 0) = 3) by (rewrite V3; cbn; lra).
  set (rs := [lit 1 0; lit (-2) 0]). set (ws := [lit 3 0; lit 1 0]).
  exists (fdiv (f_sum (Node (Leaf (fmul (lit 1 0) (lit 3 0))) (Leaf (fmul (lit (-2) 0) (lit 1 0))))) (f_sum (Node (Leaf (lit 3 0)) (Leaf (lit 1 0))))).
  assert (H : f_centroid_value rs ws (fdiv (f_sum (Node (Leaf (fmul (lit 1 0) (lit 3 0))) (Leaf (fmul (lit (-2) 0) (lit 1 0))))) (f_sum (Node (Leaf (lit 3 0)) (Leaf (lit 1 0)))))).
  { eexists _, _. split; [|split; [|reflexivity]]; apply Permutation_refl. }
  split; [exact H|].
  assert (P4 : 2 ^ 2 <= 2 ^ 400) by (apply Rle_pow; [lra | lia]). assert (I4 : / 2 ^ 400 <= / 2 ^ 0) by (apply pow_half; lia).
  assert (E1 : 2 ^ 2 = 4) by (cbn; lra). assert (E2 : / 2 ^ 0 = 1) by (cbn; lra). rewrite E1 in P4. rewrite E2 in I4.
  assert (TW : total ws = 4) by (unfold total, ws; cbn [map fold_right]; rewrite W1, W3; lra).
  edestruct (C203_accuracy 2 rs ws) with (c := fdiv (f_sum (Node (Leaf (fmul (lit 1 0) (lit 3 0))) (Leaf (fmul (lit (-2) 0) (lit 1 0))))) (f_sum (Node (Leaf (lit 3 0)) (Leaf (lit 1 0))))) as (_ & A); [discriminate | reflexivity | cbn; lia | exact (Logic.conj (Rle_trans _ 1 2 I4 ltac:(lra)) (Rle_trans 2 4 _ ltac:(lra) P4)) | | | | |].
  - apply Forall_cons; [split; [exact F1 | rewrite W1, Rabs_pos_eq; lra]|]. apply Forall_cons; [split; [exact F2 | rewrite W2, Rabs_left; lra]|]. constructor.
  - apply Forall_cons; [split; [exact F3 | rewrite W3; lra]|]. apply Forall_cons; [split; [exact F1 | rewrite W1; lra]|]. constructor.
  - rewrite TW. split; [eapply Rle_trans; [exact I4 | lra] | exact P4].
  - exact H.
  - rewrite TW in A. unfold weighted_total, rs, ws in A. cbn [combine map fold_right fst snd length INR] in A. rewrite W1, W2, W3 in A.
    replace ((1 * 3 + (-2 * 1 + 0)) / 4) with (1 / 4) in A by field. eapply Rle_trans; [exact A|]. pose proof u_pos. lra.
Qed.

(** A single particle: its centroid is its own coordinate to within three rounding units of its size. *)
Theorem C204_single_partial : forall r w c, fin r -> fin w -> / 2 ^ 400 <= Rabs (val r) <= 2 ^ 400 -> / 2 ^ 400 <= val w <= 2 ^ 400 ->
  f_centroid_value [r] [w] c -> fin c /\ Rabs (val c - val r) <= 3 * u * Rabs (val r).
Proof.
  intros r w c Fr Fw Hr Hw H. pose proof (ipow2_pos 400). assert (TW : total [w] = val w) by (unfold total; cbn [map fold_right]; lra).
  destruct (C203_accuracy (Rabs (val r)) [r] [w] c ltac:(discriminate) eq_refl ltac:(cbn; lia) Hr) as (F & A).
  - apply Forall_cons; [split; [exact Fr | lra]|constructor].
  - apply Forall_cons; [split; [exact Fw | lra]|constructor].
  - rewrite TW. exact Hw.
  - exact H.
  - split; [exact F|]. rewrite TW in A. unfold weighted_total in A. cbn [combine map fold_right fst snd length INR] in A.
    replace ((val r * val w + 0) / val w) with (val r) in A by (field; lra). eapply Rle_trans; [exact A|]. lra.
Qed.
Print Assumptions C204_single_partial.


(** Expected: the centroid of a single particle is its own coordinate, and in general lies between the smallest and the largest one.
    One particle with pT 3 and rapidity 2 - 6/2^52: the centroid is larger. *)
Theorem C204_single_refuted : exists r w c, fin r /\ fin w /\ 0 < val w /\ f_centroid_value [r] [w] c /\ val c > val r.
Proof.
  destruct (lit_ok 9007199254740986 (-52) ltac:(lia) ltac:(lia)) as (V & F). destruct (lit_ok 3 0 ltac:(lia) ltac:(lia)) as (V3 & F3).
  destruct (lit_ok 9007199254740987 (-52) ltac:(lia) ltac:(lia)) as (V' & F').
  exists (lit 9007199254740986 (-52)), (lit 3 0), (lit 9007199254740987 (-52)). split; [exact F|]. split; [exact F3|]. split; [rewrite V3; cbn; lra|]. split.
  - exists (Leaf (fmul (lit 9007199254740986 (-52)) (lit 3 0))), (Leaf (lit 3 0)). split; [apply Permutation_refl|]. split; [apply Permutation_refl|].
    symmetry. apply B2SF_inj. lazy. reflexivity.
  - rewrite V, V'. apply Rmult_gt_compat_r; [apply bpow_gt_0 | apply IZR_lt; lia].
Qed.
Print Assumptions C204_single_refuted.
