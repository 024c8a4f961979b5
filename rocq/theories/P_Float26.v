(** Accuracy of the cost matrix of arg_closest, and of the assignment, in doubles (C235, C236). *)
From Coq Require Import ZArith Reals List Bool Lia Lra Permutation Sorting.
From Flocq Require Import Core BinarySingleNaN.
From Verif Require DeltaRProofs.
From Verif Require Import Prelude SpecReal SpecIEEE SpecAssign RealBase Floats FloatBase FloatOps P_Float P_Float3 P_Float6 P_Float7 P_Float9 P_Float15 Floats9 P_Float20.
Import ListNotations.
Open Scope R_scope.

(** * Variances of real numbers *)
Lemma rsum_const {A} (c : R) (l : list A) : rsum (map (fun _ => c) l) = INR (length l) * c.
Proof. induction l as [|x l IH]; cbn [map rsum length]; [cbn; ring|]. rewrite IH, S_INR. ring. Qed.
Lemma len_pos {A} (l : list A) : l <> [] -> 0 < INR (length l).
Proof. intros H. apply lt_0_INR. destruct l; [contradiction | cbn; lia]. Qed.
Lemma sum_about m l : l <> [] -> rsum (map (fun x => (x - m) * (x - m)) l) = INR (length l) * (variance l + (mean l - m) * (mean l - m)).
Proof.
  intros N. pose proof (len_pos l N) as P. unfold variance. set (c := mean l). unfold mean. rewrite map_length.
  assert (E : rsum (map (fun x => (x - m) * (x - m)) l) = rsum (map (fun x => (x - c) * (x - c)) l) + 2 * (c - m) * (rsum l - INR (length l) * c) + INR (length l) * ((c - m) * (c - m))).
  { clearbody c. clear N P. induction l as [|x l IH]; [cbn; ring|]. cbn [map rsum length]. rewrite IH, S_INR. ring. }
  rewrite E. assert (Z : rsum l - INR (length l) * c = 0) by (unfold c, mean; field; lra). rewrite Z. field. lra.
Qed.
Lemma variance_pos l : l <> [] -> 0 <= variance l.
Proof.
  intros N. pose proof (len_pos l N) as P. unfold variance. unfold mean at 1. rewrite map_length. apply Rmult_le_pos; [|left; apply Rinv_0_lt_compat, P].
  apply rsum_map_nonneg. intros x _. apply Rle_0_sqr.
Qed.
Lemma square_split e a b E : 0 < e -> Rabs b <= E -> (a + b) * (a + b) <= (1 + e) * (a * a) + (1 + / e) * (E * E).
Proof.
  intros He HB. assert (B2 : b * b <= E * E). { rewrite <- (Rabs_pos_eq (b * b)) by apply Rle_0_sqr. rewrite Rabs_mult. pose proof (Rabs_pos b). apply Rmult_le_compat; lra. }
  assert (I : 0 < / e) by (apply Rinv_0_lt_compat, He). apply Rle_trans with ((1 + e) * (a * a) + (1 + / e) * (b * b)).
  - assert (Q : 0 <= (e * a - b) * (e * a - b) * / e) by (apply Rmult_le_pos; [apply Rle_0_sqr | lra]).
    replace ((e * a - b) * (e * a - b) * / e) with (e * (a * a) - 2 * (a * b) + / e * (b * b)) in Q by (field; lra). lra.
  - assert (/ e * (b * b) <= / e * (E * E)) by (apply Rmult_le_compat_l; lra). lra.
Qed.
Lemma variance_near e E ps : ps <> [] -> 0 < e -> (forall p : R * R, In p ps -> Rabs (fst p - snd p) <= E) ->
  variance (map fst ps) <= (1 + e) * variance (map snd ps) + (1 + / e) * (E * E).
Proof.
  intros N He H. assert (N1 : map fst ps <> []) by (destruct ps; [contradiction | discriminate]). assert (N2 : map snd ps <> []) by (destruct ps; [contradiction | discriminate]).
  pose proof (len_pos ps N) as P. set (m := mean (map snd ps)).
  pose proof (sum_about m (map fst ps) N1) as S1. rewrite map_length, map_map in S1.
  pose proof (sum_about m (map snd ps) N2) as S2. rewrite map_length, map_map in S2. fold m in S2. replace ((m - m) * (m - m)) with 0 in S2 by ring. rewrite Rplus_0_r in S2.
  assert (L : rsum (map (fun p : R * R => (fst p - m) * (fst p - m)) ps) <= rsum (map (fun p : R * R => (1 + e) * ((snd p - m) * (snd p - m)) + (1 + / e) * (E * E)) ps)).
  { apply rsum_map_le. intros p Hp. replace (fst p - m) with ((snd p - m) + (fst p - snd p)) by ring. apply square_split; [exact He | apply H, Hp]. }
  rewrite rsum_map_plus, rsum_map_scal, rsum_const, S2, S1 in L.
  assert (Q : 0 <= (mean (map fst ps) - m) * (mean (map fst ps) - m)) by apply Rle_0_sqr.
  apply (Rmult_le_reg_l (INR (length ps))); [exact P|]. nra.
Qed.
(** Numbers within E of others have a standard deviation within E of theirs. *)
Lemma deviation_near E ps : ps <> [] -> 0 < E -> (forall p : R * R, In p ps -> Rabs (fst p - snd p) <= E) -> 0 < variance (map snd ps) ->
  sqrt (variance (map fst ps)) <= sqrt (variance (map snd ps)) + E.
Proof.
  intros N HE H P. set (s := sqrt (variance (map snd ps))). assert (S : 0 < s) by (apply sqrt_lt_R0, P). assert (SS : s * s = variance (map snd ps)) by (apply sqrt_sqrt; lra).
  assert (R1 : 0 < E / s) by (apply Rdiv_lt_0_compat; assumption).
  pose proof (variance_near (E / s) E ps N R1 H) as V. rewrite <- SS in V. replace ((1 + E / s) * (s * s) + (1 + / (E / s)) * (E * E)) with ((s + E) * (s + E)) in V by (field; lra).
  rewrite <- (sqrt_square (s + E)) by lra. apply sqrt_le_1_alt, V.
Qed.
Lemma deviation_close E ps : ps <> [] -> 0 < E -> (forall p : R * R, In p ps -> Rabs (fst p - snd p) <= E) -> E < sqrt (variance (map snd ps)) ->
  Rabs (sqrt (variance (map fst ps)) - sqrt (variance (map snd ps))) <= E.
Proof.
  intros N HE H P. assert (NV : map snd ps <> []) by (destruct ps; [contradiction | discriminate]). assert (NF : map fst ps <> []) by (destruct ps; [contradiction | discriminate]).
  assert (PV : 0 < variance (map snd ps)). { destruct (variance_pos _ NV) as [L|L]; [exact L|]. rewrite <- L, sqrt_0 in P. lra. }
  pose proof (deviation_near E ps N HE H PV) as U. set (s := sqrt (variance (map snd ps))) in *.
  assert (SS : s * s = variance (map snd ps)) by (apply sqrt_sqrt; lra).
  set (qs := map (fun p => (snd p, fst p)) ps). assert (NQ : qs <> []) by (unfold qs; destruct ps; [contradiction | discriminate]).
  assert (HQ : forall p : R * R, In p qs -> Rabs (fst p - snd p) <= E). { intros p Hp. apply in_map_iff in Hp as (q & <- & Hq). cbn [fst snd]. rewrite Rabs_minus_sym. apply H, Hq. }
  assert (R1 : 0 < E / (s - E)) by (apply Rdiv_lt_0_compat; lra).
  pose proof (variance_near (E / (s - E)) E qs NQ R1 HQ) as V. unfold qs in V. rewrite !map_map in V. cbn [fst snd] in V. change (map (fun x : R * R => snd x) ps) with (map snd ps) in V. change (map (fun x : R * R => fst x) ps) with (map fst ps) in V.
  rewrite <- SS in V. set (W := variance (map fst ps)) in *.
  assert (V' : (s - E) * (s - E) <= W).
  { apply (Rmult_le_reg_l (s / (s - E))); [apply Rdiv_lt_0_compat; lra|]. replace (s / (s - E) * ((s - E) * (s - E))) with (s * s - s * E) by (field; lra).
    replace ((1 + E / (s - E)) * W + (1 + / (E / (s - E))) * (E * E)) with (s / (s - E) * W + s * E) in V by (field; lra). lra. }
  assert (s - E <= sqrt W) by (rewrite <- (sqrt_square (s - E)) by lra; apply sqrt_le_1_alt, V'). apply Rabs_le. lra.
Qed.

(** * Variances of doubles *)
Lemma geo n : INR n * u <= / 1000 -> (1 + u) ^ n <= 1 + 101 / 100 * (INR n * u).
Proof.
  intros H. pose proof u_b as [U0 U1].
  assert (M : forall k, INR k * u <= 1 -> (1 + u) ^ k * (1 - INR k * u) <= 1).
  { induction k as [|k IH]; intros L; [cbn; lra|]. rewrite S_INR in *. pose proof (pos_INR k) as P. assert (P1 : 0 <= INR k * u) by (apply Rmult_le_pos; lra).
    assert (0 < (1 + u) ^ k) by (apply pow_lt; lra). cbn [pow]. apply Rle_trans with ((1 + u) ^ k * (1 - INR k * u)); [|apply IH; lra].
    replace ((1 + u) * (1 + u) ^ k * (1 - (INR k + 1) * u)) with ((1 + u) ^ k * ((1 + u) * (1 - (INR k + 1) * u))) by ring. apply Rmult_le_compat_l; [lra|].
    assert (0 <= u * u) by (apply Rmult_le_pos; lra). assert (0 <= INR k * (u * u)) by (apply Rmult_le_pos; lra).
    replace ((1 + u) * (1 - (INR k + 1) * u)) with (1 - INR k * u - INR k * (u * u) - u * u) by ring. lra. }
  specialize (M n ltac:(lra)). set (w := INR n * u) in *. assert (W : 0 <= w) by (apply Rmult_le_pos; [apply pos_INR | lra]). set (g := (1 + u) ^ n) in *.
  assert (W2 : 0 <= w * w <= w * / 1000) by (split; [apply Rmult_le_pos | apply Rmult_le_compat_l]; lra).
  apply (Rmult_le_reg_r (1 - w)); [lra|]. replace ((1 + 101 / 100 * w) * (1 - w)) with (1 + / 100 * w - 101 / 100 * (w * w)) by field. lra.
Qed.

Lemma mean_step w A S T m mn : 0 < u <= w -> w <= / 1000 -> 0 <= A -> 0 <= mn -> Rabs (S - T) <= 101 / 100 * w * A -> Rabs T <= A -> Rabs (m - S) <= u * Rabs S + u * mn ->
  Rabs (m - T) <= 203 / 100 * w * A + mn.
Proof.
  intros U W HA HM H1 H2 H3. pose proof u_b as [_ UB]. assert (WA : 0 <= w * A <= / 1000 * A) by (split; [apply Rmult_le_pos | apply Rmult_le_compat_r]; lra).
  assert (AS : Rabs S <= 1002 / 1000 * A). { replace S with ((S - T) + T) by ring. eapply Rle_trans; [apply Rabs_triang|]. lra. }
  assert (US : u * Rabs S <= w * (1002 / 1000 * A)) by (apply Rmult_le_compat; [lra | apply Rabs_pos | lra | lra]).
  assert (u * mn <= mn). { rewrite <- (Rmult_1_l mn) at 2. apply Rmult_le_compat_r; lra. }
  replace (m - T) with ((m - S) + (S - T)) by ring. eapply Rle_trans; [apply Rabs_triang|]. lra.
Qed.
Lemma len_Z n : (0 < n)%nat -> INR n * u <= / 1000 -> let k := lit (Z.of_nat n) 0 in val k = INR n /\ fin k /\ 1 <= INR n.
Proof.
  intros P W k. assert (B : (Z.of_nat n < 2 ^ 53)%Z).
  { apply lt_IZR. rewrite <- INR_IZR_INZ. apply (Rmult_lt_reg_r u); [apply u_pos|]. apply Rle_lt_trans with (/ 1000); [exact W|]. replace (IZR (2 ^ 53)) with (2 ^ 53)%R by (rewrite pow_IZR; reflexivity). unfold u. rewrite Rinv_r by (apply pow_nonzero; lra). lra. }
  destruct (lit_int (Z.of_nat n) ltac:(lia)) as (V & F). unfold k. split; [rewrite V; symmetry; apply INR_IZR_INZ|]. split; [exact F|]. change 1 with (INR 1). apply le_INR. lia.
Qed.
Lemma mean_fl t n : length (leaves t) = n -> (0 < n)%nat -> INR n * u <= / 1000 -> Forall fin (leaves t) -> total_abs (leaves t) <= 2 ^ 1000 ->
  fin (f_mean t n) /\ Rabs (val (f_mean t n) - SpecIEEE.total (leaves t) / INR n) <= 203 / 100 * (INR n * u) * (total_abs (leaves t) / INR n) + min_normal.
Proof.
  intros L P W F B. destruct n as [|n']; [lia|]. set (n := S n') in *. pose proof u_b as [U0 U1]. pose proof pow1000 as PB. assert (P1 : 0 < 2 ^ 1000) by (apply pow_lt; lra).
  destruct (len_Z n P W) as (VN & FN & N1). set (A := total_abs (leaves t)) in *. assert (A0 : 0 <= A) by apply total_abs_pos. set (T := SpecIEEE.total (leaves t)) in *.
  assert (G : (1 + u) ^ n' <= 1 + 101 / 100 * (INR n * u)).
  { apply Rle_trans with ((1 + u) ^ n); [apply Rle_pow; [lra | unfold n; lia] | apply geo, W]. }
  assert (G1 : (1 + u) ^ n' <= 2) by lra. assert (G0 : 1 <= (1 + u) ^ n') by (apply pow_R1_Rle; lra).
  assert (GA : (1 + u) ^ n' * A <= 2 * 2 ^ 1000) by (apply Rmult_le_compat; lra).
  destruct (C145_sum t n' L F) as (FS & ES); [fold A; lra|]. fold A T in ES. set (S := val (f_sum t)) in *.
  assert (ES' : Rabs (S - T) <= 101 / 100 * (INR n * u) * A). { eapply Rle_trans; [exact ES|]. apply Rmult_le_compat_r; lra. }
  assert (I : 0 < / INR n <= 1). { split; [apply Rinv_0_lt_compat; lra|]. rewrite <- Rinv_1. apply Rinv_le_contravar; lra. }
  assert (TA : Rabs T <= A) by apply total_le.
  assert (SA : Rabs S <= 2 * 2 ^ 1000).
  { replace S with ((S - T) + T) by ring. eapply Rle_trans; [apply Rabs_triang|]. assert (101 / 100 * (INR n * u) * A <= 1 * A) by (apply Rmult_le_compat_r; lra). lra. }
  assert (DS : Rabs (S / INR n) <= 2 * 2 ^ 1000). { unfold Rdiv. rewrite Rabs_mult, (Rabs_pos_eq (/ INR n)) by lra. pose proof (Rabs_pos S). rewrite <- (Rmult_1_r (2 * 2 ^ 1000)). apply Rmult_le_compat; [apply Rabs_pos | lra | exact SA | lra]. }
  unfold f_mean. destruct (fdiv_ok (f_sum t) (lit (Z.of_nat n) 0) FS FN) as (V & FD & _); [rewrite VN; lra | apply no_overflow; rewrite VN; fold S; lra|].
  split; [exact FD|]. rewrite V, VN. fold S. apply (mean_step (INR n * u) (A / INR n) (S / INR n)).
  - split; [lra|]. rewrite <- (Rmult_1_l u) at 1. apply Rmult_le_compat_r; lra.
  - exact W.
  - apply Rmult_le_pos; lra.
  - pose proof mn_pos. lra.
  - replace (S / INR n - T / INR n) with ((S - T) * / INR n) by (unfold Rdiv; ring). rewrite Rabs_mult, (Rabs_pos_eq (/ INR n)) by lra.
    replace (101 / 100 * (INR n * u) * (A / INR n)) with (101 / 100 * (INR n * u) * A * / INR n) by (unfold Rdiv; ring). apply Rmult_le_compat_r; lra.
  - unfold Rdiv. rewrite Rabs_mult, (Rabs_pos_eq (/ INR n)) by lra. apply Rmult_le_compat_r; lra.
  - apply nearest_err_any.
Qed.

Lemma sums_near (g : f64 -> f64) (h : f64 -> R) c e l : 0 <= c -> 0 <= e -> (forall x, In x l -> 0 <= h x /\ Rabs (val (g x) - h x) <= c * h x + e) ->
  Rabs (SpecIEEE.total (map g l) - rsum (map h l)) <= c * rsum (map h l) + INR (length l) * e /\ total_abs (map g l) <= (1 + c) * rsum (map h l) + INR (length l) * e.
Proof.
  intros C0 E0. induction l as [|x l IH]; intros H; [unfold SpecIEEE.total, total_abs; cbn; rewrite Rminus_0_r, Rabs_R0; split; lra|].
  destruct (H x (or_introl eq_refl)) as (HP & HX). destruct IH as (I1 & I2); [intros y Hy; apply H; right; exact Hy|].
  unfold SpecIEEE.total, total_abs in *. cbn [map fold_right rsum length]. rewrite S_INR. split.
  - replace (val (g x) + fold_right Rplus 0 (map val (map g l)) - (h x + rsum (map h l))) with ((val (g x) - h x) + (fold_right Rplus 0 (map val (map g l)) - rsum (map h l))) by ring.
    eapply Rle_trans; [apply Rabs_triang|]. lra.
  - assert (Rabs (val (g x)) <= (1 + c) * h x + e). { replace (val (g x)) with ((val (g x) - h x) + h x) by ring. eapply Rle_trans; [apply Rabs_triang|]. rewrite (Rabs_pos_eq (h x)) by exact HP. lra. }
    lra.
Qed.

Lemma p400 : 100 * (2 ^ 400 * 2 ^ 400) <= 2 ^ 1000 /\ 1 <= 2 ^ 400.
Proof.
  split; [|apply pow_R1_Rle; lra]. assert (E : 2 ^ 1000 = 2 ^ 200 * (2 ^ 400 * 2 ^ 400)) by (rewrite <- !pow_add; reflexivity). rewrite E.
  assert (100 <= 2 ^ 200). { apply Rle_trans with (2 ^ 7); [simpl; lra | apply Rle_pow; [lra | lia]]. } apply Rmult_le_compat_r; [apply Rmult_le_pos; apply pow_le; lra | assumption].
Qed.
Lemma sq_step z e y q : Rabs e <= u -> 0 <= q -> Rabs (y - z * (1 + e) * (z * (1 + e))) <= u * Rabs (z * (1 + e) * (z * (1 + e))) + q -> Rabs (y - z * z) <= 301 / 100 * u * (z * z) + q.
Proof.
  intros He Q H. pose proof u_b as [U0 U1]. apply Rabs_le_inv in He. assert (Z : 0 <= z * z) by apply Rle_0_sqr.
  assert (E2 : 0 <= e * e <= u * / 1000). { split; [apply Rle_0_sqr|]. rewrite <- (Rabs_pos_eq (e * e)) by apply Rle_0_sqr. rewrite Rabs_mult. assert (Rabs e <= u) by (apply Rabs_le; lra). pose proof (Rabs_pos e). apply Rmult_le_compat; lra. }
  set (t := 2 * e + e * e). assert (T : Rabs t <= 2001 / 1000 * u) by (unfold t; apply Rabs_le; lra).
  replace (z * (1 + e) * (z * (1 + e))) with (z * z + z * z * t) in H by (unfold t; ring).
  assert (ZT : Rabs (z * z * t) <= z * z * (2001 / 1000 * u)). { rewrite Rabs_mult, (Rabs_pos_eq (z * z)) by exact Z. apply Rmult_le_compat_l; assumption. }
  assert (ZU : 0 <= z * z * u <= z * z * / 1000) by (split; [apply Rmult_le_pos | apply Rmult_le_compat_l]; lra).
  assert (B : Rabs (z * z + z * z * t) <= z * z * (1003 / 1000)). { eapply Rle_trans; [apply Rabs_triang|]. rewrite (Rabs_pos_eq (z * z)) by exact Z. lra. }
  assert (UB : u * Rabs (z * z + z * z * t) <= u * (z * z * (1003 / 1000))) by (apply Rmult_le_compat_l; lra).
  replace (y - z * z) with ((y - (z * z + z * z * t)) + z * z * t) by ring. eapply Rle_trans; [apply Rabs_triang|]. lra.
Qed.
Lemma dev_fl X x m : fin x -> fin m -> Rabs (val x) <= X -> Rabs (val m) <= 2 * X -> X <= 2 ^ 400 ->
  Rabs (val (fmul (fsub x m) (fsub x m)) - (val x - val m) * (val x - val m)) <= 301 / 100 * u * ((val x - val m) * (val x - val m)) + u * min_normal /\ fin (fmul (fsub x m) (fsub x m)) .
Proof.
  intros Fx Fm Hx Hm HX. pose proof u_b as [U0 U1]. pose proof mn_pos as MN. destruct p400 as (Q1 & Q2). pose proof pow1000 as PB.
  assert (X0 : 0 <= X) by (pose proof (Rabs_pos (val x)); lra).
  assert (DB : Rabs (val x - val m) <= 3 * X). { unfold Rminus. eapply Rle_trans; [apply Rabs_triang|]. rewrite Rabs_Ropp. lra. }
  assert (SM : 2 ^ 400 <= 2 ^ 400 * 2 ^ 400). { rewrite <- (Rmult_1_r (2 ^ 400)) at 1. apply Rmult_le_compat_l; lra. }
  destruct (fsub_ok x m Fx Fm) as (VD & FD & _); [apply no_overflow; lra|]. destruct (sub_rel x m) as (e & He & ED). rewrite ED in VD. set (z := val x - val m) in *. set (d := fsub x m) in *.
  assert (DV : Rabs (val d) <= 4 * X).
  { rewrite VD, Rabs_mult. assert (Rabs (1 + e) <= 4 / 3). { eapply Rle_trans; [apply Rabs_triang|]. rewrite Rabs_R1. lra. } replace (4 * X) with (3 * X * (4 / 3)) by field. apply Rmult_le_compat; auto using Rabs_pos. }
  assert (DD : Rabs (val d * val d) <= SpecIEEE.huge).
  { rewrite Rabs_mult. apply Rle_trans with (4 * 2 ^ 400 * (4 * 2 ^ 400)); [apply Rmult_le_compat; auto using Rabs_pos; lra | lra]. }
  destruct (fmul_ok d d FD FD) as (V & F & _); [apply no_overflow; exact DD|]. split; [|exact F].
  apply (sq_step z e); [exact He | apply Rmult_le_pos; lra|]. rewrite <- VD, V. apply nearest_err_any.
Qed.

Lemma var_step w X s V M mn : 0 < u <= w -> w <= / 1000 -> 0 < X -> 0 < s -> s <= X -> 1000 * (w * X) <= s -> 0 < mn -> mn <= / 1000 * (w * X * s) -> Rabs M <= 204 / 100 * (w * X) ->
  Rabs (V - (s * s + M * M)) <= 51 / 10 * w * (s * s + M * M) + 2 * mn -> Rabs (V - s * s) <= 6 * (w * X) * s.
Proof.
  intros U W HX Hs SX KS MP MB HM HV. set (p := w * X) in *. assert (P0 : 0 < p) by (unfold p; apply Rmult_lt_0_compat; lra).
  assert (MM : 0 <= M * M <= 204 / 100 * p * (204 / 100 * p)). { split; [apply Rle_0_sqr|]. rewrite <- (Rabs_pos_eq (M * M)) by apply Rle_0_sqr. rewrite Rabs_mult. apply Rmult_le_compat; auto using Rabs_pos. }
  assert (PP : 0 <= p * p <= p * (s / 1000)) by (split; [apply Rmult_le_pos | apply Rmult_le_compat_l]; lra). assert (PS : 0 < p * s) by (apply Rmult_lt_0_compat; lra).
  assert (WS : 0 <= w * (s * s) <= p * s). { split; [apply Rmult_le_pos; [lra | apply Rle_0_sqr]|]. unfold p. rewrite Rmult_assoc. apply Rmult_le_compat_l; [lra|]. apply Rmult_le_compat_r; lra. }
  assert (WM : 0 <= w * (M * M) <= / 1000 * (M * M)) by (split; [apply Rmult_le_pos | apply Rmult_le_compat_r]; lra).
  replace (V - s * s) with ((V - (s * s + M * M)) + M * M) by ring. eapply Rle_trans; [apply Rabs_triang|]. rewrite (Rabs_pos_eq (M * M)) by lra. lra.
Qed.
Lemma variance_below X l : l <> [] -> (forall x, In x l -> Rabs x <= X) -> sqrt (variance l) <= X.
Proof.
  intros N H. pose proof (len_pos l N) as P. pose proof (sum_about 0 l N) as S. pose proof (variance_pos l N) as V0.
  assert (X0 : 0 <= X). { destruct l as [|x l]; [contradiction|]. pose proof (Rabs_pos x). specialize (H x (or_introl eq_refl)). lra. }
  assert (B : rsum (map (fun x => (x - 0) * (x - 0)) l) <= rsum (map (fun _ => X * X) l)).
  { apply rsum_map_le. intros x Hx. rewrite !Rminus_0_r. rewrite <- (Rabs_pos_eq (x * x)) by apply Rle_0_sqr. rewrite Rabs_mult. specialize (H x Hx). apply Rmult_le_compat; auto using Rabs_pos. }
  rewrite rsum_const, S in B. apply Rmult_le_reg_l in B; [|exact P]. assert (0 <= (mean l - 0) * (mean l - 0)) by apply Rle_0_sqr.
  rewrite <- (sqrt_square X) by exact X0. apply sqrt_le_1_alt. lra.
Qed.
Lemma tiny_mn : min_normal <= / 2 ^ 1000 * / 1000.
Proof. destruct mn_tiny as [T _]. pose proof mn_pos. assert (0 < / 2 ^ 1000) by (apply Rinv_0_lt_compat, pow_lt; lra). lra. Qed.
Lemma total_map_val l : SpecIEEE.total l = rsum (map val l).
Proof. unfold SpecIEEE.total. induction l as [|x l IH]; [reflexivity|]. cbn. rewrite <- IH. reflexivity. Qed.

(** np.var in doubles, whatever the order of the additions: off by at most 6 n u times the largest value times the standard deviation. *)
Theorem C235_variance : forall xs v X, xs <> [] -> Forall fin xs -> (forall x, In x xs -> Rabs (val x) <= X) -> / 2 ^ 400 <= X <= 2 ^ 400 ->
  let n := INR (length xs) in let s := sqrt (variance (map val xs)) in
  n * u <= / 1000 -> 1000 * (n * u * X) <= s -> f_var xs v ->
  fin v /\ Rabs (val v - variance (map val xs)) <= 6 * (n * u * X) * s.
Proof.
  intros xs v X N F HX (XL & XU) n s W KS (t1 & t2 & P1 & P2 & ->). pose proof u_b as [U0 U1]. pose proof mn_pos as MN. destruct p400 as (Q1 & Q2). pose proof pow1000 as PB.
  assert (LP : (0 < length xs)%nat) by (destruct xs; [contradiction | cbn; lia]).
  assert (N1 : 1 <= n) by (apply (len_Z _ LP W)). assert (I : 0 < / n) by (apply Rinv_0_lt_compat; lra).
  assert (ML : / 2 ^ 400 * (2 ^ 400) = 1) by (apply Rinv_l, pow_nonzero; lra).
  assert (X0 : 0 < X) by (assert (0 < / 2 ^ 400) by (apply Rinv_0_lt_compat; lra); lra).
  assert (UW : u <= n * u) by (rewrite <- (Rmult_1_l u) at 1; apply Rmult_le_compat_r; lra).
  set (w := n * u) in *. assert (WX : u * / 2 ^ 400 <= w * X). { apply Rmult_le_compat; try lra. }
  assert (UP : 0 < u * / 2 ^ 400) by (apply Rmult_lt_0_compat; [lra | apply Rinv_0_lt_compat; lra]).
  assert (MS : min_normal <= / 1000 * (u * / 2 ^ 400 * (u * / 2 ^ 400))).
  { eapply Rle_trans; [apply tiny_mn|]. rewrite Rmult_comm. apply Rmult_le_compat_l; [lra|]. unfold u. rewrite <- (Rinv_mult (2 ^ 53) (2 ^ 400)), <- Rinv_mult, <- !pow_add. apply Rinv_le_contravar; [apply pow_lt; lra | apply Rle_pow; [lra | cbn; lia]]. }
  assert (WW : u * / 2 ^ 400 * (u * / 2 ^ 400) <= w * X * (w * X)) by (apply Rmult_le_compat; lra).
  assert (W2 : w * X * (w * X) <= w * X * s). { apply Rmult_le_compat_l; lra. }
  assert (MB : min_normal <= / 1000 * (w * X * s)) by lra.
  assert (U1' : u * / 2 ^ 400 <= 1). { rewrite <- (Rmult_1_l 1). assert (/ 2 ^ 400 <= 1) by (rewrite <- Rinv_1; apply Rinv_le_contravar; lra). assert (0 < / 2 ^ 400) by (apply Rinv_0_lt_compat; lra). apply Rmult_le_compat; lra. }
  assert (MW : min_normal <= / 100 * (w * X)). { assert (u * / 2 ^ 400 * (u * / 2 ^ 400) <= 1 * (u * / 2 ^ 400)) by (apply Rmult_le_compat_r; lra). lra. }
  (* the mean *)
  assert (NV : map val xs <> []) by (destruct xs; [contradiction | discriminate]). assert (SX : s <= X).
  { apply variance_below; [exact NV|]. intros r Hr. apply in_map_iff in Hr as (x & <- & Hx). apply HX, Hx. }
  assert (S0 : 0 < s) by lra.
  assert (F1 : Forall fin (leaves t1)) by (eapply Permutation_Forall; [apply Permutation_sym, P1 | exact F]).
  destruct (total_perm _ _ P1) as (T1 & A1).
  assert (AX : forall l, (forall x, In x l -> Rabs (val x) <= X) -> total_abs l <= INR (length l) * X).
  { induction l as [|x l IH]; intros H; [unfold total_abs; cbn; lra|]. unfold total_abs in *. cbn [map fold_right length]. rewrite S_INR. specialize (IH (fun y Hy => H y (or_intror Hy))). specialize (H x (or_introl eq_refl)). lra. }
  specialize (AX xs HX). rewrite <- A1 in AX. fold n in AX.
  assert (NB : n <= 2 ^ 400). { apply (Rmult_le_reg_r u); [lra|]. fold w. apply Rle_trans with 1; [lra|]. rewrite <- (Rinv_r (2 ^ 53)) by (apply pow_nonzero; lra). fold u. apply Rmult_le_compat_r; [lra | apply Rle_pow; [lra | lia]]. }
  assert (NX : n * X <= 2 ^ 400 * 2 ^ 400) by (apply Rmult_le_compat; lra).
  destruct (mean_fl t1 (length xs) (Permutation_length P1) LP W F1) as (FM & EM); [assert (0 < 2 ^ 400 * 2 ^ 400) by (apply Rmult_lt_0_compat; lra); lra|]. fold n w in EM.
  assert (EMn : SpecIEEE.total (leaves t1) / n = mean (map val xs)) by (rewrite T1, total_map_val; unfold mean; rewrite map_length; reflexivity). rewrite EMn in EM.
  assert (AN : total_abs (leaves t1) / n <= X). { apply (Rmult_le_reg_r n); [lra|]. unfold Rdiv. rewrite Rmult_assoc, Rinv_l by lra. lra. }
  assert (EM' : Rabs (val (f_mean t1 (length xs)) - mean (map val xs)) <= 204 / 100 * (w * X)).
  { eapply Rle_trans; [exact EM|]. assert (w * (total_abs (leaves t1) / n) <= w * X) by (apply Rmult_le_compat_l; lra). lra. }
  set (mf := f_mean t1 (length xs)) in *.
  assert (MT : Rabs (mean (map val xs)) <= X).
  { rewrite <- EMn. unfold Rdiv. rewrite Rabs_mult, (Rabs_pos_eq (/ n)) by lra. eapply Rle_trans; [apply Rmult_le_compat_r; [lra | apply total_le]|]. exact AN. }
  assert (MX : Rabs (val mf) <= 2 * X).
  { replace (val mf) with ((val mf - mean (map val xs)) + mean (map val xs)) by ring. eapply Rle_trans; [apply Rabs_triang|]. assert (w * X <= / 1000 * X) by (apply Rmult_le_compat_r; lra). lra. }
  (* the squares *)
  set (g := fun x => let d := fsub x mf in fmul d d) in *. set (h := fun x => (val x - val mf) * (val x - val mf)).
  rewrite Forall_forall in F.
  assert (FG : Forall fin (map g xs)). { apply Forall_forall. intros y Hy. apply in_map_iff in Hy as (x & <- & Hx). apply (dev_fl X x mf (F x Hx) FM (HX x Hx) MX XU). }
  assert (UM : 0 <= u * min_normal <= min_normal). { split; [apply Rmult_le_pos; lra|]. rewrite <- (Rmult_1_l min_normal) at 2. apply Rmult_le_compat_r; lra. }
  destruct (sums_near g h (301 / 100 * u) (u * min_normal) xs) as (SG1 & SG2); [lra | lra | |].
  { intros x Hx. split; [apply Rle_0_sqr|]. apply (dev_fl X x mf (F x Hx) FM (HX x Hx) MX XU). }
  fold n in SG1, SG2. set (H := rsum (map h xs)) in *.
  assert (HQ : H = n * (variance (map val xs) + (mean (map val xs) - val mf) * (mean (map val xs) - val mf))).
  { pose proof (sum_about (val mf) (map val xs) NV) as E. rewrite map_map, map_length in E. exact E. }
  set (M := mean (map val xs) - val mf) in *. assert (SS : s * s = variance (map val xs)) by (apply sqrt_sqrt, variance_pos, NV). rewrite <- SS in *. set (Q := s * s + M * M) in *.
  assert (HM : Rabs M <= 204 / 100 * (w * X)) by (unfold M; rewrite Rabs_minus_sym; exact EM').
  assert (Q0 : 0 <= Q) by (unfold Q; pose proof (Rle_0_sqr s); pose proof (Rle_0_sqr M); unfold Rsqr in *; lra).
  assert (QB : Q <= 2 * (2 ^ 400 * 2 ^ 400)).
  { assert (WX1 : w * X <= / 1000 * X) by (apply Rmult_le_compat_r; lra). assert (WX0 : 0 <= w * X) by lra. assert (Rabs M <= X) by lra. assert (M * M <= 2 ^ 400 * 2 ^ 400). { rewrite <- (Rabs_pos_eq (M * M)) by apply Rle_0_sqr. rewrite Rabs_mult. apply Rmult_le_compat; auto using Rabs_pos; lra. }
    assert (s * s <= 2 ^ 400 * 2 ^ 400) by (apply Rmult_le_compat; lra). unfold Q. lra. }
  destruct (total_perm _ _ P2) as (T2 & A2). rewrite <- T2 in SG1. rewrite <- A2 in SG2.
  assert (F2 : Forall fin (leaves t2)) by (eapply Permutation_Forall; [apply Permutation_sym, P2 | exact FG]).
  assert (L2 : length (leaves t2) = length xs) by (rewrite (Permutation_length P2); apply map_length).
  assert (HB : H <= 2 ^ 53 * (2 * (2 ^ 400 * 2 ^ 400)) /\ n <= 2 ^ 53).
  { assert (N53 : n <= 2 ^ 53). { apply (Rmult_le_reg_r u); [lra|]. fold w. unfold u. rewrite Rinv_r by (apply pow_nonzero; lra). lra. } split; [rewrite HQ; apply Rmult_le_compat; lra | exact N53]. }
  destruct HB as (HB & N53).
  assert (BIG : 2 ^ 53 * (2 * (2 ^ 400 * 2 ^ 400)) * 4 <= 2 ^ 1000).
  { replace (2 ^ 53 * (2 * (2 ^ 400 * 2 ^ 400)) * 4) with (2 ^ 53 * (2 ^ 1 * (2 ^ 400 * 2 ^ 400)) * 2 ^ 2) by ring. rewrite <- !pow_add. apply Rle_pow; [lra | cbn; lia]. }
  assert (NM : n * (u * min_normal) <= / 1000 * min_normal). { rewrite <- Rmult_assoc. fold w. apply Rmult_le_compat_r; lra. }
  assert (H0 : 0 <= H) by (rewrite HQ; apply Rmult_le_pos; lra).
  assert (UH : u * H <= / 1000 * H) by (apply Rmult_le_compat_r; lra).
  assert (MN1 : min_normal <= 1). { destruct mn_tiny as [_ MU]. lra. }
  assert (B253 : 1 <= 2 ^ 53) by (apply pow_R1_Rle; lra). assert (B1 : 1 <= 2 ^ 53 * (2 * (2 ^ 400 * 2 ^ 400))) by (rewrite <- (Rmult_1_l 1) at 1; apply Rmult_le_compat; lra).
  destruct (mean_fl t2 (length xs) L2 LP W F2) as (FV & EV); [lra|]. fold n w in EV. split; [exact FV|].
  set (V := val (f_mean t2 (length xs))) in *. set (T := SpecIEEE.total (leaves t2)) in *. set (A := total_abs (leaves t2)) in *.
  assert (HN : H / n = Q) by (rewrite HQ; field; lra). assert (UN : n * (u * min_normal) / n = u * min_normal) by (field; lra).
  assert (TQ : Rabs (T / n - Q) <= 301 / 100 * u * Q + u * min_normal).
  { rewrite <- HN. replace (T / n - H / n) with ((T - H) * / n) by (unfold Rdiv; ring). rewrite Rabs_mult, (Rabs_pos_eq (/ n)) by lra. rewrite <- UN.
    replace (301 / 100 * u * (H / n) + n * (u * min_normal) / n) with ((301 / 100 * u * H + n * (u * min_normal)) * / n) by (unfold Rdiv; ring). apply Rmult_le_compat_r; lra. }
  assert (AQ : A / n <= (1 + 301 / 100 * u) * Q + u * min_normal).
  { rewrite <- HN, <- UN. replace ((1 + 301 / 100 * u) * (H / n) + n * (u * min_normal) / n) with (((1 + 301 / 100 * u) * H + n * (u * min_normal)) * / n) by (unfold Rdiv; ring). apply Rmult_le_compat_r; lra. }
  clear - EV TQ AQ Q0 U0 U1 UW W UM MN MB HM SX KS S0 X0.
  apply (var_step w X s V M min_normal); try assumption; try lra. fold Q.
  assert (UQ : 0 <= u * Q <= w * Q) by (split; [apply Rmult_le_pos | apply Rmult_le_compat_r]; lra).
  assert (UQ2 : u * Q <= / 1000 * Q) by (apply Rmult_le_compat_r; lra).
  assert (WA : w * (A / n) <= w * (1004 / 1000 * Q + min_normal)) by (apply Rmult_le_compat_l; lra).
  assert (WM : w * min_normal <= / 1000 * min_normal) by (apply Rmult_le_compat_r; lra). assert (UM2 : u * min_normal <= / 1000 * min_normal) by (apply Rmult_le_compat_r; lra).
  replace (V - Q) with ((V - T / n) + (T / n - Q)) by ring. eapply Rle_trans; [apply Rabs_triang|]. lra.
Qed.

(** * The Gaussian *)
Lemma exp_low x : 1 - exp (- x) <= x.
Proof. pose proof (exp_ineq1_le (- x)). lra. Qed.
Lemma exp_neg_1 x : 0 <= x -> 0 < exp (- x) <= 1.
Proof. intros H. split; [apply exp_pos|]. rewrite <- exp_0. destruct H as [H| <-]; [left; apply exp_increasing; lra | rewrite Ropp_0; right; reflexivity]. Qed.
Lemma x_exp x : 0 <= x -> x * exp (- x) <= 1.
Proof. intros H. pose proof (exp_ineq1_le x) as E. rewrite <- (Rinv_r (exp x)) by (pose proof (exp_pos x); lra). rewrite exp_Ropp. apply Rmult_le_compat_r; [left; apply Rinv_0_lt_compat, exp_pos | lra]. Qed.
Lemma exp_perturb a b c t : 0 <= a -> 0 <= b -> 0 <= c <= / 1000 -> 0 <= t -> Rabs (a - b) <= c * a + t -> Rabs (exp (- a) - exp (- b)) <= 1002 / 1000 * (c + t).
Proof.
  intros A B C T H. apply Rabs_le_inv in H. destruct (exp_neg_1 a A) as (EA & EA1). destruct (exp_neg_1 b B) as (EB & EB1). pose proof (x_exp a A) as XA. pose proof (x_exp b B) as XB.
  destruct (Rle_dec a b) as [L|L].
  - assert (E : exp (- b) = exp (- a) * exp (- (b - a))) by (rewrite <- exp_plus; f_equal; ring). pose proof (exp_low (b - a)) as W.
    assert (U : exp (- b) <= exp (- a)) by (rewrite E; rewrite <- (Rmult_1_r (exp (- a))) at 2; apply Rmult_le_compat_l; [lra | apply exp_neg_1; lra]).
    rewrite Rabs_pos_eq by lra. assert (exp (- a) * (1 - exp (- (b - a))) <= exp (- a) * (c * a + t)) by (apply Rmult_le_compat_l; lra).
    assert (c * (a * exp (- a)) <= c * 1) by (apply Rmult_le_compat_l; lra). assert (t * exp (- a) <= t * 1) by (apply Rmult_le_compat_l; lra). lra.
  - assert (E : exp (- a) = exp (- b) * exp (- (a - b))) by (rewrite <- exp_plus; f_equal; ring). pose proof (exp_low (a - b)) as W.
    assert (U : exp (- a) <= exp (- b)) by (rewrite E; rewrite <- (Rmult_1_r (exp (- b))) at 2; apply Rmult_le_compat_l; [lra | apply exp_neg_1; lra]).
    rewrite Rabs_minus_sym, Rabs_pos_eq by lra. assert (exp (- b) * (1 - exp (- (a - b))) <= exp (- b) * (a - b)) by (apply Rmult_le_compat_l; lra).
    assert (CA : c * a <= / 1000 * a) by (apply Rmult_le_compat_r; lra). assert (AB : a <= 1002 / 1000 * (b + t)) by lra.
    assert (CB : c * a <= c * (1002 / 1000 * (b + t))) by (apply Rmult_le_compat_l; lra). assert (CT : c * t <= / 1000 * t) by (apply Rmult_le_compat_r; lra).
    assert (D : exp (- b) * (a - b) <= exp (- b) * (1002 / 1000 * (c * b) + 10011 / 10000 * t)) by (apply Rmult_le_compat_l; lra).
    assert (c * (b * exp (- b)) <= c * 1) by (apply Rmult_le_compat_l; lra). assert (t * exp (- b) <= t * 1) by (apply Rmult_le_compat_l; lra). lra.
Qed.
Lemma gauss_abs s : exp (- (s * s) / 2) = exp (- (Rabs s * Rabs s) / 2).
Proof. rewrite <- Rabs_mult, Rabs_pos_eq by apply Rle_0_sqr. reflexivity. Qed.
Lemma gauss_lip s t : Rabs (exp (- (s * s) / 2) - exp (- (t * t) / 2)) <= Rabs (s - t).
Proof.
  assert (M : forall s t, 0 <= s -> s <= t -> 0 <= exp (- (s * s) / 2) - exp (- (t * t) / 2) <= t - s).
  { clear s t. intros s t S T. set (a := s * s / 2). set (d := (t * t - s * s) / 2).
    assert (S2 : 0 <= s * s) by (apply Rmult_le_pos; lra). assert (ST : s * s <= t * t) by (apply Rmult_le_compat; lra).
    replace (- (s * s) / 2) with (- a) by (unfold a; field). replace (- (t * t) / 2) with (- a + - d) by (unfold a, d; field). rewrite exp_plus.
    destruct (exp_neg_1 a) as (A0 & A1); [unfold a; lra|]. destruct (exp_neg_1 d) as (D0 & D1); [unfold d; lra|]. pose proof (exp_low d) as W.
    split; [assert (exp (- a) * exp (- d) <= exp (- a) * 1) by (apply Rmult_le_compat_l; lra); lra|].
    destruct (Rle_dec 1 (t - s)) as [L|L]; [assert (0 < exp (- a) * exp (- d)) by (apply Rmult_lt_0_compat; lra); lra|].
    assert (B : exp (- a) * (1 - exp (- d)) <= exp (- a) * ((s + / 2) * (t - s))).
    { apply Rmult_le_compat_l; [lra|]. apply Rle_trans with d; [exact W|]. unfold d. replace ((t * t - s * s) / 2) with ((t + s) / 2 * (t - s)) by field. apply Rmult_le_compat_r; lra. }
    assert (C : exp (- a) * (s + / 2) <= 1).
    { assert (Q : 0 <= (s - 1) * (s - 1)) by apply Rle_0_sqr. pose proof (exp_ineq1_le a) as EI. apply Rle_trans with (exp (- a) * exp a); [|rewrite <- exp_plus, Rplus_opp_l, exp_0; lra].
      apply Rmult_le_compat_l; [lra|]. unfold a in *. lra. }
    assert (exp (- a) * (s + / 2) * (t - s) <= 1 * (t - s)) by (apply Rmult_le_compat_r; lra). lra. }
  rewrite (gauss_abs s), (gauss_abs t). apply Rle_trans with (Rabs (Rabs s - Rabs t)); [|apply Rabs_triang_inv2].
  pose proof (Rabs_pos s). pose proof (Rabs_pos t). destruct (Rle_dec (Rabs s) (Rabs t)) as [L|L].
  - destruct (M (Rabs s) (Rabs t)) as (M1 & M2); [assumption..|]. rewrite (Rabs_pos_eq (exp _ - exp _)) by exact M1. rewrite (Rabs_minus_sym (Rabs s)), (Rabs_pos_eq (Rabs t - Rabs s)) by lra. exact M2.
  - destruct (M (Rabs t) (Rabs s)) as (M1 & M2); [lra..|]. rewrite (Rabs_minus_sym (exp _)), (Rabs_pos_eq (exp _ - exp _)) by exact M1. rewrite (Rabs_pos_eq (Rabs s - Rabs t)) by lra. exact M2.
Qed.
(** The Gaussian of a perturbed argument over a perturbed width. *)
Lemma gauss_near x D s sg E : 0 < s -> 0 < sg -> Rabs (x - D) <= E -> Rabs (s - sg) <= E -> 0 < E -> 3000 * E <= s ->
  Rabs (exp (- (x * x) / (2 * (s * s))) - exp (- (D * D) / (2 * (sg * sg)))) <= 302 / 100 * (E / s).
Proof.
  intros S G HX HS E0 ES. assert (I : 0 < / s) by (apply Rinv_0_lt_compat, S). set (y := E / s). assert (Y : 0 < y <= / 3000).
  { split; [apply Rdiv_lt_0_compat; lra|]. unfold y. apply (Rmult_le_reg_r s); [exact S|]. unfold Rdiv. rewrite Rmult_assoc, Rinv_l by lra. lra. }
  assert (A : Rabs (exp (- (x * x) / (2 * (s * s))) - exp (- (D * D) / (2 * (s * s)))) <= y).
  { pose proof (gauss_lip (x / s) (D / s)) as L. replace (- (x / s * (x / s)) / 2) with (- (x * x) / (2 * (s * s))) in L by (field; lra). replace (- (D / s * (D / s)) / 2) with (- (D * D) / (2 * (s * s))) in L by (field; lra).
    eapply Rle_trans; [exact L|]. replace (x / s - D / s) with ((x - D) * / s) by (field; lra). rewrite Rabs_mult, (Rabs_pos_eq (/ s)) by lra. unfold y, Rdiv. apply Rmult_le_compat_r; lra. }
  assert (B : Rabs (exp (- (D * D) / (2 * (sg * sg))) - exp (- (D * D) / (2 * (s * s)))) <= 1002 / 1000 * (2001 / 1000 * y + 0)).
  { replace (- (D * D) / (2 * (sg * sg))) with (- (D * D / (2 * (sg * sg)))) by (field; lra). replace (- (D * D) / (2 * (s * s))) with (- (D * D / (2 * (s * s)))) by (field; lra).
    assert (DD : 0 <= D * D) by apply Rle_0_sqr. assert (PG : 0 < / (2 * (sg * sg))) by (apply Rinv_0_lt_compat; assert (0 < sg * sg) by (apply Rmult_lt_0_compat; lra); lra).
    assert (PS : 0 < / (2 * (s * s))) by (apply Rinv_0_lt_compat; assert (0 < s * s) by (apply Rmult_lt_0_compat; lra); lra).
    apply exp_perturb; [apply Rmult_le_pos; lra | apply Rmult_le_pos; lra | lra | lra|].
    replace (D * D / (2 * (sg * sg)) - D * D / (2 * (s * s))) with (D * D / (2 * (sg * sg)) * (1 - sg * sg * (/ s * / s))) by (field; lra).
    rewrite Rabs_mult, Rplus_0_r, (Rabs_pos_eq (D * D / (2 * (sg * sg)))) by (apply Rmult_le_pos; lra). rewrite Rmult_comm. apply Rmult_le_compat_r; [apply Rmult_le_pos; lra|].
    set (g := (sg - s) * / s). assert (GB : Rabs g <= y). { unfold g. rewrite Rabs_mult, (Rabs_pos_eq (/ s)) by lra. rewrite Rabs_minus_sym. unfold y, Rdiv. apply Rmult_le_compat_r; lra. }
    replace (1 - sg * sg * (/ s * / s)) with (- (2 * g + g * g)) by (unfold g; field; lra). rewrite Rabs_Ropp.
    assert (G2 : Rabs (g * g) <= y * / 1000) by (rewrite Rabs_mult; apply Rmult_le_compat; auto using Rabs_pos; lra).
    eapply Rle_trans; [apply Rabs_triang|]. rewrite Rabs_mult, (Rabs_pos_eq 2) by lra. lra. }
  replace (exp (- (x * x) / (2 * (s * s))) - exp (- (D * D) / (2 * (sg * sg)))) with
    ((exp (- (x * x) / (2 * (s * s))) - exp (- (D * D) / (2 * (s * s)))) - (exp (- (D * D) / (2 * (sg * sg))) - exp (- (D * D) / (2 * (s * s))))) by ring.
  unfold Rminus at 1. eapply Rle_trans; [apply Rabs_triang|]. rewrite Rabs_Ropp. fold y. lra.
Qed.

(** * The exponent *)
Lemma recip_step y s V : 0 < s -> 0 <= y <= / 20000 -> Rabs (V - s * s) <= 6 * y * (s * s) -> 0 < V /\ Rabs (/ V - / (s * s)) <= 6002 / 1000 * y * / (s * s).
Proof.
  intros S Y H. assert (S2 : 0 < s * s) by (apply Rmult_lt_0_compat; lra). assert (YS : 0 <= y * (s * s) <= / 20000 * (s * s)) by (split; [apply Rmult_le_pos | apply Rmult_le_compat_r]; lra).
  pose proof (Rabs_le_inv _ _ H) as HL. assert (VP : 9997 / 10000 * (s * s) <= V) by lra. split; [lra|].
  assert (IV : 0 < / V) by (apply Rinv_0_lt_compat; lra). assert (IS : 0 < / (s * s)) by (apply Rinv_0_lt_compat, S2).
  assert (VS : / V <= 10003002 / 10000000 * / (s * s)).
  { apply (Rmult_le_reg_l V); [lra|]. rewrite Rinv_r by lra. assert (9997 / 10000 * (s * s) * / (s * s) <= V * / (s * s)) by (apply Rmult_le_compat_r; lra). rewrite Rmult_assoc, Rinv_r in H0 by lra. lra. }
  replace (/ V - / (s * s)) with (- ((V - s * s) * / (s * s) * / V)) by (field; lra). rewrite Rabs_Ropp, !Rabs_mult, (Rabs_pos_eq (/ (s * s))), (Rabs_pos_eq (/ V)) by lra.
  assert (A : Rabs (V - s * s) * / (s * s) <= 6 * y). { apply (Rmult_le_reg_r (s * s)); [exact S2|]. rewrite Rmult_assoc, Rinv_l by lra. lra. }
  assert (A0 : 0 <= Rabs (V - s * s) * / (s * s)) by (apply Rmult_le_pos; [apply Rabs_pos | lra]).
  eapply Rle_trans; [apply Rmult_le_compat; [exact A0 | lra | exact A | exact VS]|]. assert (0 <= y * / (s * s)) by (apply Rmult_le_pos; lra). lra.
Qed.
Lemma exponent_step y h aa e x mn ax2 : (* ax2 = aa x^2, h = x^2/(2 s^2) *)
  0 <= y -> u <= y -> y <= / 20000 -> 0 <= h -> Rabs (ax2 + h) <= 1010 / 100 * y * h -> Rabs (e - ax2) <= 201 / 100 * u * Rabs ax2 + mn -> ax2 = aa * x * x -> Rabs (h - (- e)) <= 122 / 10 * y * h + mn.
Proof.
  intros Y U Y1 H0 HA HE _. assert (YH : 0 <= y * h <= / 20000 * h) by (split; [apply Rmult_le_pos | apply Rmult_le_compat_r]; lra). pose proof u_b as [U0 U1].
  assert (UH : u * h <= y * h) by (apply Rmult_le_compat_r; lra).
  assert (AB : Rabs ax2 <= 1001 / 1000 * h). { replace ax2 with ((ax2 + h) - h) by ring. unfold Rminus. eapply Rle_trans; [apply Rabs_triang|]. rewrite Rabs_Ropp, (Rabs_pos_eq h) by exact H0. lra. }
  assert (UA : u * Rabs ax2 <= u * (1001 / 1000 * h)) by (apply Rmult_le_compat_l; lra).
  replace (h - (- e)) with ((ax2 + h) + (e - ax2)) by ring. eapply Rle_trans; [apply Rabs_triang|]. lra.
Qed.
Lemma two_products aa x P e mn X : Rabs x <= X -> 0 <= mn -> Rabs (P - aa * x) <= u * Rabs (aa * x) + u * mn -> Rabs (e - P * x) <= u * Rabs (P * x) + u * mn ->
  Rabs (e - aa * x * x) <= 201 / 100 * u * Rabs (aa * x * x) + u * mn * (2 + 2 * X).
Proof.
  intros HX MN H1 H2. pose proof u_b as [U0 U1]. pose proof (Rabs_pos x) as X0. pose proof (Rabs_pos (aa * x * x)) as Z0. assert (UM : 0 <= u * mn) by (apply Rmult_le_pos; lra).
  assert (A : Rabs (P * x - aa * x * x) <= u * Rabs (aa * x * x) + u * mn * X).
  { replace (P * x - aa * x * x) with ((P - aa * x) * x) by ring. rewrite Rabs_mult. eapply Rle_trans; [apply Rmult_le_compat_r; [exact X0 | exact H1]|]. rewrite (Rabs_mult (aa * x) x). assert (u * mn * Rabs x <= u * mn * X) by (apply Rmult_le_compat_l; assumption). lra. }
  assert (UMX : 0 <= u * mn * X) by (apply Rmult_le_pos; lra).
  assert (UZ : u * Rabs (aa * x * x) <= / 1000 * Rabs (aa * x * x)) by (apply Rmult_le_compat_r; lra).
  assert (B : Rabs (P * x) <= 1001 / 1000 * Rabs (aa * x * x) + u * mn * X). { replace (P * x) with ((P * x - aa * x * x) + aa * x * x) by ring. eapply Rle_trans; [apply Rabs_triang|]. lra. }
  assert (UB : u * Rabs (P * x) <= u * (1001 / 1000 * Rabs (aa * x * x) + u * mn * X)) by (apply Rmult_le_compat_l; lra).
  assert (UU : u * (u * mn * X) <= / 1000 * (u * mn * X)) by (apply Rmult_le_compat_r; lra).
  replace (e - aa * x * x) with ((e - P * x) + (P * x - aa * x * x)) by ring. eapply Rle_trans; [apply Rabs_triang|].
  assert (0 <= u * Rabs (aa * x * x)) by (apply Rmult_le_pos; lra). lra.
Qed.
Lemma exponent_close v s x X p : fin v -> 0 < s -> s <= X -> Rabs (val v - s * s) <= 6 * p * s -> 20000 * p <= s -> u * X <= p -> fin x -> Rabs (val x) <= X -> / 2 ^ 400 <= X <= 2 ^ 400 ->
  let e := f_exponent (fdiv fone v) x in
  fin e /\ val e <= 0 /\ Rabs (val x * val x / (2 * (s * s)) - - val e) <= 122 / 10 * (p / s) * (val x * val x / (2 * (s * s))) + u.
Proof.
  intros Fv S SX HV PS UP Fx HX (XL & XU) e. pose proof u_b as [U0 U1]. pose proof mn_pos as MN. destruct p400 as (Q1 & Q2). pose proof pow1000 as PB.
  assert (X0 : 0 < X) by lra. assert (b0 : 0 < / s) by (apply Rinv_0_lt_compat, S). set (y := p / s).
  assert (UX : 0 < u * X) by (apply Rmult_lt_0_compat; lra).
  assert (ys : y * s = p) by (unfold y; field; lra).
  assert (Y : 0 <= y <= / 20000). { split; [apply Rmult_le_pos; lra|]. apply (Rmult_le_reg_r s); [exact S|]. rewrite ys. lra. }
  assert (UY : u <= y). { apply (Rmult_le_reg_r s); [exact S|]. rewrite ys. assert (u * s <= u * X) by (apply Rmult_le_compat_l; lra). lra. }
  assert (HV' : Rabs (val v - s * s) <= 6 * y * (s * s)) by (replace (6 * y * (s * s)) with (6 * p * s) by (rewrite <- ys; ring); exact HV).
  destruct (recip_step y s (val v) S Y HV') as (VP & RS). set (iv := / val v) in *. set (is := / (s * s)) in *.
  assert (S2 : 0 < s * s) by (apply Rmult_lt_0_compat; lra). assert (IS : 0 < is) by (apply Rinv_0_lt_compat, S2). assert (IV : 0 < iv) by (apply Rinv_0_lt_compat, VP).
  assert (YI : 0 <= y * is <= / 20000 * is) by (split; [apply Rmult_le_pos | apply Rmult_le_compat_r]; lra). pose proof (Rabs_le_inv _ _ RS) as RL.
  (* sizes *)
  assert (XB : X * / s <= 2 ^ 40). { apply (Rmult_le_reg_r s); [exact S|]. rewrite Rmult_assoc, Rinv_l by lra. rewrite Rmult_1_r. apply (Rmult_le_reg_l u); [lra|].
    apply Rle_trans with (/ 20000 * s); [lra|]. rewrite <- Rmult_assoc. apply Rmult_le_compat_r; [lra|]. unfold u. replace 53%nat with (13 + 40)%nat by reflexivity. rewrite pow_add, Rinv_mult, Rmult_assoc, Rinv_l by (apply pow_nonzero; lra). simpl. lra. }
  assert (U440 : / 2 ^ 453 <= s). { apply Rle_trans with (u * X); [|lra]. replace 453%nat with (53 + 400)%nat by reflexivity. rewrite pow_add, Rinv_mult. fold u. apply Rmult_le_compat_l; lra. }
  assert (B453 : / s <= 2 ^ 453). { rewrite <- (Rinv_inv (2 ^ 453)). apply Rinv_le_contravar; [apply Rinv_0_lt_compat, pow_lt; lra | exact U440]. }
  assert (ISB : is = / s * / s) by (unfold is; apply Rinv_mult).
  assert (I906 : 4 * is <= 2 ^ 1000). { rewrite ISB. apply Rle_trans with (2 ^ 2 * (2 ^ 453 * 2 ^ 453)); [apply Rmult_le_compat; [lra | apply Rmult_le_pos; lra | simpl; lra | apply Rmult_le_compat; lra]|]. rewrite <- !pow_add. apply Rle_pow; [lra | cbn; lia]. }
  assert (IX : 4 * (is * X) <= 2 ^ 1000). { rewrite ISB. replace (4 * (/ s * / s * X)) with (2 ^ 2 * (/ s * (X * / s))) by ring. apply Rle_trans with (2 ^ 2 * (2 ^ 453 * 2 ^ 40)).
    - apply Rmult_le_compat_l; [apply pow_le; lra|]. apply Rmult_le_compat; try lra. apply Rmult_le_pos; lra.
    - rewrite <- !pow_add. apply Rle_pow; [lra | cbn; lia]. }
  assert (IXX : 4 * (is * X * X) <= 2 ^ 1000). { rewrite ISB. replace (4 * (/ s * / s * X * X)) with (2 ^ 2 * ((X * / s) * (X * / s))) by ring. assert (0 <= X * / s) by (apply Rmult_le_pos; lra). apply Rle_trans with (2 ^ 2 * (2 ^ 40 * 2 ^ 40)).
    - apply Rmult_le_compat_l; [apply pow_le; lra|]. apply Rmult_le_compat; assumption.
    - rewrite <- !pow_add. apply Rle_pow; [lra | cbn; lia]. }
  assert (MI : min_normal <= / 1000 * is).
  { eapply Rle_trans; [apply tiny_mn|]. rewrite Rmult_comm. apply Rmult_le_compat_l; [lra|]. unfold is. apply Rinv_le_contravar; [exact S2|]. assert (s * s <= 2 ^ 400 * 2 ^ 400) by (apply Rmult_le_compat; lra). lra. }
  (* the reciprocal *)
  destruct (lit_int 1 ltac:(lia)) as (V1 & F1). fold fone in V1, F1.
  assert (E1 : val fone / val v = iv) by (rewrite V1; unfold Rdiv, iv; ring).
  destruct (fdiv_ok fone v F1 Fv) as (VR & FR & _); [lra | apply no_overflow; rewrite E1, Rabs_pos_eq by lra; lra |]. rewrite E1 in VR.
  pose proof (nearest_err_any iv) as ER. rewrite <- VR, (Rabs_pos_eq iv) in ER by lra. set (r := fdiv fone v) in *.
  assert (UI : 0 <= u * is <= y * is) by (split; [apply Rmult_le_pos | apply Rmult_le_compat_r]; lra).
  assert (UIV : u * iv <= u * (1001 / 1000 * is)) by (apply Rmult_le_compat_l; lra). assert (UM : u * min_normal <= u * (/ 1000 * is)) by (apply Rmult_le_compat_l; lra).
  pose proof (Rabs_le_inv _ _ ER) as ERL. assert (RB : 0 <= val r <= 1002 / 1000 * is) by lra.
  destruct (lit_ok (-1) (-1) ltac:(lia) ltac:(lia)) as (VH & FH). change (bpow radix2 (-1)) with (/ 2) in VH.
  assert (E2 : val (lit (-1) (-1)) * val r = - (val r / 2)) by (rewrite VH; field).
  destruct (fmul_ok (lit (-1) (-1)) r FH FR) as (VA & FA & _); [apply no_overflow; rewrite E2, Rabs_Ropp, Rabs_pos_eq by lra; lra|]. rewrite E2 in VA.
  pose proof (nearest_err_any (- (val r / 2))) as EA. rewrite <- VA, Rabs_Ropp, (Rabs_pos_eq (val r / 2)) in EA by lra. set (a := fmul (lit (-1) (-1)) r) in *.
  assert (URV : u * (val r / 2) <= u * (501 / 1000 * is)) by (apply Rmult_le_compat_l; lra).
  pose proof (Rabs_le_inv _ _ EA) as EAL. assert (AE : Rabs (val a + is / 2) <= 1010 / 100 * y * (is / 2)) by (apply Rabs_le; lra).
  assert (AB : Rabs (val a) <= 505 / 1000 * is) by (apply Rabs_le; pose proof (Rabs_le_inv _ _ AE); lra).
  assert (A0 : val a <= 0). { rewrite VA, <- nearest_0. apply nearest_le. lra. }
  (* the two products *)
  assert (AX : Rabs (val a * val x) <= 505 / 1000 * (is * X)). { rewrite Rabs_mult. replace (505 / 1000 * (is * X)) with (505 / 1000 * is * X) by ring. apply Rmult_le_compat; auto using Rabs_pos. }
  destruct (fmul_ok a x FA Fx) as (VP1 & FP1 & _); [apply no_overflow; assert (0 <= is * X) by (apply Rmult_le_pos; lra); lra|].
  pose proof (nearest_err_any (val a * val x)) as EP. rewrite <- VP1 in EP. set (P := fmul a x) in *.
  assert (MX : min_normal * (2 + 2 * X) <= 1).
  { apply Rle_trans with (/ 2 ^ 1000 * / 1000 * (4 * 2 ^ 400)); [apply Rmult_le_compat; [lra | lra | apply tiny_mn | lra]|]. assert (2 ^ 400 <= 2 ^ 1000) by (apply Rle_pow; [lra | lia]). assert (0 < / 2 ^ 1000) by (apply Rinv_0_lt_compat, pow_lt; lra).
    assert (/ 2 ^ 1000 * 2 ^ 400 <= / 2 ^ 1000 * 2 ^ 1000) by (apply Rmult_le_compat_l; lra). rewrite Rinv_l in H1 by (apply pow_nonzero; lra). lra. }
  assert (UAX : u * Rabs (val a * val x) <= / 1000 * (is * X)). { assert (0 <= is * X) by (apply Rmult_le_pos; lra). apply Rle_trans with (u * (505 / 1000 * (is * X))); [apply Rmult_le_compat_l; lra|]. assert (u * (is * X) <= / 1000 * (is * X)) by (apply Rmult_le_compat_r; lra). lra. }
  assert (PX : Rabs (val P) <= is * X + u * min_normal). { assert (0 <= is * X) by (apply Rmult_le_pos; lra). replace (val P) with ((val P - val a * val x) + val a * val x) by ring. eapply Rle_trans; [apply Rabs_triang|]. lra. }
  assert (PXX : Rabs (val P * val x) <= is * X * X + u * min_normal * X).
  { rewrite Rabs_mult. rewrite <- Rmult_plus_distr_r. apply Rmult_le_compat; auto using Rabs_pos. }
  assert (UMX : 0 <= u * min_normal * X <= u). { assert (0 <= min_normal * X) by (apply Rmult_le_pos; lra). split; [rewrite Rmult_assoc; apply Rmult_le_pos; lra|]. rewrite Rmult_assoc. rewrite <- (Rmult_1_r u) at 2. apply Rmult_le_compat_l; lra. }
  destruct (fmul_ok P x FP1 Fx) as (VE & FE & _); [apply no_overflow; assert (1 <= 2 ^ 1000) by (apply pow_R1_Rle; lra); lra|].
  pose proof (nearest_err_any (val P * val x)) as EE. rewrite <- VE in EE. fold (f_exponent r x) in *. change (fmul P x) with e in *.
  split; [exact FE|]. split.
  - destruct (quad_nonpos a x FA A0 Fx) as [(_ & H)|H]; [exact H|]. change (fmul (fmul a x) x) with e in H. rewrite H in FE. discriminate FE.
  - pose proof (two_products (val a) (val x) (val P) (val e) min_normal X HX ltac:(lra) EP EE) as TP.
    assert (XX : 0 <= val x * val x) by apply Rle_0_sqr.
    assert (h0 : 0 <= val x * val x / (2 * (s * s))). { replace (val x * val x / (2 * (s * s))) with (val x * val x * (is / 2)) by (unfold is; field; lra). apply Rmult_le_pos; lra. }
    apply (exponent_step y _ (val a) (val e) (val x) u (val a * val x * val x)); try lra.
    + replace (val a * val x * val x + val x * val x / (2 * (s * s))) with ((val a + is / 2) * (val x * val x)) by (unfold is; field; lra).
      replace (1010 / 100 * y * (val x * val x / (2 * (s * s)))) with (1010 / 100 * y * (is / 2) * (val x * val x)) by (unfold is; field; lra).
      rewrite Rabs_mult, (Rabs_pos_eq (val x * val x)) by exact XX. apply Rmult_le_compat_r; assumption.
    + eapply Rle_trans; [exact TP|]. apply Rplus_le_compat_l. rewrite Rmult_assoc. rewrite <- (Rmult_1_r u) at 2. apply Rmult_le_compat_l; lra.
Qed.

(** * One coordinate of one entry *)
(** math.expm1 is accurate to [k] units on the finite numbers not above zero. *)
Definition accurate_expm1 (k : R) (expm1 : f64 -> f64) : Prop := forall x, fin x -> val x <= 0 ->
  fin (expm1 x) /\ P_Float9.close k (val (expm1 x)) (exp (val x) - 1).
Lemma pairs_of (xs : list f64) (ds : list R) E : Forall2 (fun x d => Rabs (val x - d) <= E) xs ds ->
  exists ps : list (R * R), map fst ps = map val xs /\ map snd ps = ds /\ forall p, In p ps -> Rabs (fst p - snd p) <= E.
Proof.
  induction 1 as [|x d xs ds H _ (ps & P1 & P2 & P3)]; [exists []; cbn; tauto|]. exists ((val x, d) :: ps). cbn [map fst snd]. rewrite P1, P2. split; [reflexivity|]. split; [reflexivity|].
  intros p [<-|I]; [exact H | apply P3, I].
Qed.
Lemma kernel_close expm1 k xs ds v X E x D : 0 <= k <= 1000 -> accurate_expm1 k expm1 -> Forall2 (fun x d => Rabs (val x - d) <= E) xs ds -> xs <> [] -> Forall fin xs ->
  (forall x, In x xs -> Rabs (val x) <= X) -> / 2 ^ 400 <= X <= 2 ^ 400 -> f_var xs v -> 0 < E ->
  let n := INR (length xs) in let sg := sqrt (variance ds) in
  n * u <= / 1000 -> 4000 * E <= sg -> 25000 * (n * u * X) <= sg -> fin x -> Rabs (val x) <= X -> Rabs (val x - D) <= E ->
  let c := expm1 (f_exponent (fdiv fone v) x) in
  0 < val v /\ fin v /\ fin c /\ Rabs (val c + 1 - exp (- (D * D) / (2 * variance ds))) <= 31 / 10 * (E / sg) + 124 / 10 * (n * u * X / sg) + (101 / 100 * k + 2) * u.
Proof.
  intros K GE FA N F HX XR HV E0 n sg W ES KS Fx HXx HD c. pose proof u_b as [U0 U1]. pose proof mn_pos as MN. destruct mn_tiny as [_ MU].
  destruct (pairs_of xs ds E FA) as (ps & P1 & P2 & P3).
  assert (NP : ps <> []) by (intros ->; destruct xs; [contradiction | discriminate P1]). assert (ND : ds <> []) by (rewrite <- P2; destruct ps; [contradiction | discriminate]).
  pose proof (deviation_close E ps NP E0 P3) as DC. rewrite P1, P2 in DC. fold sg in DC. set (s := sqrt (variance (map val xs))) in *. specialize (DC ltac:(lra)). pose proof (Rabs_le_inv _ _ DC) as DL.
  assert (SG : 0 < sg) by lra. assert (S : 0 < s) by lra. assert (SS : s * s = variance (map val xs)) by (apply sqrt_sqrt, variance_pos; destruct xs; [contradiction | discriminate]).
  assert (GG : sg * sg = variance ds) by (apply sqrt_sqrt, variance_pos, ND).
  assert (LP : (0 < length xs)%nat) by (destruct xs; [contradiction | cbn; lia]). destruct (len_Z _ LP W) as (_ & _ & N1). fold n in N1.
  set (p := n * u * X) in *. assert (X0 : 0 < X) by (assert (0 < / 2 ^ 400) by (apply Rinv_0_lt_compat, pow_lt; lra); lra).
  assert (UW : u <= n * u) by (rewrite <- (Rmult_1_l u) at 1; apply Rmult_le_compat_r; lra). assert (UX : u * X <= p) by (unfold p; apply Rmult_le_compat_r; lra). assert (UX0 : 0 < u * X) by (apply Rmult_lt_0_compat; lra).
  destruct (C235_variance xs v X N F HX XR W) as (FV & EV); [fold n p s; lra | exact HV|]. fold n p s in EV. rewrite <- SS in EV.
  assert (SX : s <= X). { apply variance_below; [destruct xs; [contradiction | discriminate]|]. intros r Hr. apply in_map_iff in Hr as (z & <- & Hz). apply HX, Hz. }
  destruct (exponent_close v s x X p FV S SX EV ltac:(lra) UX Fx HXx XR) as (Fe & Ne & EE). set (e := f_exponent (fdiv fone v) x) in *.
  assert (VP : 0 < val v). { apply Rabs_le_inv in EV. assert (p * s <= / 20000 * s * s) by (apply Rmult_le_compat_r; lra). assert (0 < s * s) by (apply Rmult_lt_0_compat; lra). lra. }
  split; [exact VP|]. split; [exact FV|]. destruct (GE e Fe Ne) as (Fc & Cc). fold c in Fc, Cc. split; [exact Fc|].
  set (ex := exp (val e)) in *. assert (EX : 0 < ex <= 1). { unfold ex. rewrite <- (Ropp_involutive (val e)). apply exp_neg_1. lra. }
  assert (Y : 0 <= p / s <= / 20000). { split; [apply Rmult_le_pos; [lra | left; apply Rinv_0_lt_compat, S]|]. apply (Rmult_le_reg_r s); [exact S|]. unfold Rdiv. rewrite Rmult_assoc, Rinv_l by lra. lra. }
  assert (A : Rabs (exp (- (val x * val x / (2 * (s * s)))) - ex) <= 1002 / 1000 * (122 / 10 * (p / s) + u)).
  { unfold ex. rewrite <- (Ropp_involutive (val e)). apply exp_perturb; [| lra | lra | lra | exact EE]. apply Rmult_le_pos; [apply Rle_0_sqr|]. left. apply Rinv_0_lt_compat. assert (0 < s * s) by (apply Rmult_lt_0_compat; lra). lra. }
  pose proof (gauss_near (val x) D s sg E S SG HD DC E0 ltac:(lra)) as B. rewrite GG in B. replace (- (val x * val x) / (2 * (s * s))) with (- (val x * val x / (2 * (s * s)))) in B by (field; lra).
  set (g1 := exp (- (val x * val x / (2 * (s * s))))) in *. set (g2 := exp (- (D * D) / (2 * variance ds))) in *.
  assert (CC : Rabs (val c - (ex - 1)) <= 1001 / 1000 * k * u).
  { eapply Rle_trans; [exact Cc|]. assert (Rabs (ex - 1) + min_normal <= 1001 / 1000) by (rewrite Rabs_left1 by lra; lra). replace (1001 / 1000 * k * u) with (k * u * (1001 / 1000)) by ring. apply Rmult_le_compat_l; [apply Rmult_le_pos; lra | assumption]. }
  assert (IS : / s <= 10005 / 10000 * / sg). { apply (Rmult_le_reg_l s); [exact S|]. rewrite Rinv_r by lra. assert (9996 / 10000 * sg * / sg <= s * / sg) by (apply Rmult_le_compat_r; [left; apply Rinv_0_lt_compat, SG | lra]). rewrite Rmult_assoc, Rinv_r in H by lra. lra. }
  assert (Es : E / s <= 10005 / 10000 * (E / sg)). { unfold Rdiv at 1 3. replace (10005 / 10000 * (E * / sg)) with (E * (10005 / 10000 * / sg)) by ring. apply Rmult_le_compat_l; lra. }
  assert (Ps : p / s <= 10005 / 10000 * (p / sg)). { unfold Rdiv at 1 3. replace (10005 / 10000 * (p * / sg)) with (p * (10005 / 10000 * / sg)) by ring. apply Rmult_le_compat_l; lra. }
  assert (E0' : 0 < E / sg) by (apply Rdiv_lt_0_compat; lra). assert (P0' : 0 < p / sg) by (apply Rdiv_lt_0_compat; lra). assert (KU : 0 <= k * u) by (apply Rmult_le_pos; lra).
  replace (val c + 1 - g2) with ((val c - (ex - 1)) + ((ex - g1) + (g1 - g2))) by ring. rewrite Rabs_minus_sym in A.
  eapply Rle_trans; [apply Rabs_triang|]. assert (T : Rabs ((ex - g1) + (g1 - g2)) <= 1002 / 1000 * (122 / 10 * (p / s) + u) + 302 / 100 * (E / s)) by (eapply Rle_trans; [apply Rabs_triang|]; lra).
  lra.
Qed.

(** * The matrix *)
Definition pt_of (p : fcomplex) : R := sqrt (re p * re p + im p * im p).
(** [d] is the exact distance, in the rapidity-azimuth plane, between two objects given in doubles. *)
Definition exact_distance (a b : f64 * fcomplex) (d : R) : Prop :=
  exists g, gap (snd a) (snd b) g /\ d = sqrt ((val (fst a) - val (fst b)) * (val (fst a) - val (fst b)) + g * g).
(** [D] holds the exact distances of the objects (rap_1, pol_1) from the objects (rap_2, pol_2). *)
Definition exact_distances (rap_1 rap_2 : list f64) (pol_1 pol_2 : list fcomplex) (D : list (list R)) : Prop :=
  Forall2 (fun a row => Forall2 (exact_distance a) (combine rap_2 pol_2) row) (combine rap_1 pol_1) D.
Definition exact_cost (pol_1 pol_2 : list fcomplex) (D : list (list R)) (i j : nat) : R :=
  pair_cost (nth j (nth i D []) 0) (variance (nth i D [])) (nth i (map pt_of pol_1) 0 - nth j (map pt_of pol_2) 0) (variance (map pt_of pol_2)).
(** Distances up to [X] and momenta up to [Y], spread out: a standard deviation is at least the [rho]th part of the bound. *)
Definition spread_out (pol_1 pol_2 : list fcomplex) (D : list (list R)) (X Y rho : R) : Prop :=
  (forall row d, In row D -> In d row -> d <= X) /\ (forall p, In p (pol_1 ++ pol_2) -> pt_of p <= Y) /\ 0 <= X /\ X + 1 <= 2 ^ 399 /\ / 2 ^ 400 <= Y /\ Y <= 2 ^ 398 /\
  (forall row, In row D -> X + 1 <= rho * sqrt (variance row)) /\ Y <= rho * sqrt (variance (map pt_of pol_2)).

Lemma pos_not_zero v : fin v -> 0 < val v -> feq v fzero = false.
Proof.
  intros F H. unfold feq. destruct (Beqb v fzero) eqn:E; [|reflexivity]. exfalso.
  unfold Beqb, SpecFloat.SFeqb in E. fold (Bcompare v fzero) in E. rewrite (Bcompare_correct 53 1024 v fzero F eq_refl) in E. change (B2R v) with (val v) in E. change (B2R fzero) with 0 in E. destruct (Rcompare_spec (val v) 0); try discriminate; lra.
Qed.
Lemma Forall2_map_l {A B C} (f : A -> B) (P : B -> C -> Prop) l r : Forall2 (fun a c => P (f a) c) l r -> Forall2 P (map f l) r.
Proof. induction 1; constructor; assumption. Qed.
Lemma Forall2_impl_in {A B} (P Q : A -> B -> Prop) l r : (forall a b, In a l -> In b r -> P a b -> Q a b) -> Forall2 P l r -> Forall2 Q l r.
Proof. intros H F. induction F as [|a b l r Hab _ IH]; constructor; [apply H; [left | left | ]; auto | apply IH; intros; apply H; [right | right |]; assumption]. Qed.
Lemma Forall2_nth_both {A B} (P : A -> B -> Prop) l r i x y : Forall2 P l r -> nth_error l i = Some x -> nth_error r i = Some y -> P x y.
Proof. intros H. revert i. induction H as [|a b l r Hab _ IH]; intros [|i] E1 E2; cbn in *; try discriminate; [congruence | eapply IH; eassumption]. Qed.

Lemma Forall2_map_both {A B C} (P : B -> C -> Prop) (f : A -> B) (g : A -> C) l : (forall x, In x l -> P (f x) (g x)) -> Forall2 P (map f l) (map g l).
Proof. induction l as [|x l IH]; intros H; [constructor|]. constructor; [apply H; left; reflexivity | apply IH; intros; apply H; right; assumption]. Qed.
Lemma F2_length {A B} (P : A -> B -> Prop) l r : Forall2 P l r -> length l = length r.
Proof. induction 1; cbn; congruence. Qed.
Lemma ratio_le a rho sg : 0 < sg -> a <= rho * sg -> a / sg <= rho.
Proof. intros S H. apply (Rmult_le_reg_r sg); [exact S|]. unfold Rdiv. rewrite Rmult_assoc, Rinv_l by lra. lra. Qed.

Section Costs.
  Context (hypot atan2 : f64 -> f64 -> f64) (expm1 : f64 -> f64) (k : R) (K : 0 <= k <= 1000) (GH : good_hypot k hypot) (GA : good_atan2 k atan2) (GE : accurate_expm1 k expm1).
  Context (rho : R) (n : R) (N1 : 1 <= n) (R1 : 1 <= rho) (SMALL : 100000 * (n + k + 1) * rho * u <= 1).
  Let ru := rho * u.
  Lemma ru_facts : 0 < u /\ u <= ru /\ 100000 * ru <= 1 /\ 0 <= n * ru /\ 100000 * (n * ru) <= 1 /\ 0 <= k * ru /\ 100000 * (k * ru) <= 1 /\ n * u <= / 1000 /\ 0 <= k * u /\ k * u <= k * ru.
  Proof.
    pose proof u_b as [U0 U1]. assert (A : u <= ru) by (unfold ru; rewrite <- (Rmult_1_l u) at 1; apply Rmult_le_compat_r; lra).
    assert (B : 100000 * (n * ru) + 100000 * (k * ru) + 100000 * ru <= 1) by (unfold ru; lra).
    assert (0 <= n * ru) by (apply Rmult_le_pos; lra). assert (0 <= k * ru) by (apply Rmult_le_pos; lra). assert (n * u <= n * ru) by (apply Rmult_le_compat_l; lra). assert (k * u <= k * ru) by (apply Rmult_le_compat_l; lra).
    assert (0 <= k * u) by (apply Rmult_le_pos; lra). repeat split; lra.
  Qed.

  (** The distance half of an entry. *)
  Lemma distance_half X rap_2 pol_2 r1 p1 row v x d j : fin r1 -> Rabs (val r1) <= 2 ^ 1000 -> usable p1 -> (forall r, In r rap_2 -> fin r /\ Rabs (val r) <= 2 ^ 1000) -> (forall p, In p pol_2 -> usable p) ->
    length rap_2 = length pol_2 -> n = INR (length pol_2) -> Forall2 (exact_distance (r1, p1)) (combine rap_2 pol_2) row -> (forall d, In d row -> d <= X) -> 0 <= X -> X + 1 <= 2 ^ 399 ->
    X + 1 <= rho * sqrt (variance row) ->
    f_var (map (fun b => f_delta hypot atan2 r1 (fst b) p1 (snd b)) (combine rap_2 pol_2)) v ->
    nth_error (map (fun b => f_delta hypot atan2 r1 (fst b) p1 (snd b)) (combine rap_2 pol_2)) j = Some x -> nth_error row j = Some d ->
    let c := expm1 (f_exponent (fdiv fone v) x) in
    0 < val v /\ fin v /\ fin c /\ Rabs (val c + 1 - exp (- (d * d) / (2 * variance row))) <= (8 * k + 13 * n + 15) * ru.
  Proof.
    intros Fr Br Up Hr Hp L En FR HX X0 X1 SP HV Hx Hd c. destruct ru_facts as (U0 & U1 & U2 & N0 & N2 & K0 & K2 & NU & KU0 & KU). pose proof u_b as [_ UB].
    set (f := fun b => f_delta hypot atan2 r1 (fst b) p1 (snd b)) in *. set (xs := map f (combine rap_2 pol_2)) in *.
    assert (LX : length xs = length pol_2) by (unfold xs; rewrite map_length, combine_length; lia).
    assert (EU : (2 * k + 2) * u <= / 1000) by lra.
    set (E := ((2 * k + 2) * X + 4) * u). assert (EX : 0 <= (2 * k + 2) * u * X <= / 1000 * X) by (split; [apply Rmult_le_pos | apply Rmult_le_compat_r]; lra).
    assert (E4 : 4 * u <= E) by (unfold E; lra). assert (E5 : E <= / 1000 * (X + 1)) by (unfold E; lra).
    assert (ACC : forall b d, In b (combine rap_2 pol_2) -> In d row -> exact_distance (r1, p1) b d -> fin (f b) /\ Rabs (val (f b) - d) <= E /\ Rabs (val (f b)) <= 1001 / 1000 * (X + 1)).
    { intros (r2, p2) d' Ib Id (g & G & ->). cbn [fst snd] in *. destruct (Hr r2 (in_combine_l _ _ _ _ Ib)) as (Fr2 & Br2).
      destruct (C174_accuracy hypot atan2 k K GH GA r1 r2 p1 p2 g Fr Fr2 Br Br2 Up (Hp p2 (in_combine_r _ _ _ _ Ib)) G) as (FD & ED).
      specialize (HX _ Id). set (ex := sqrt _) in *. assert (ex0 : 0 <= ex) by apply sqrt_pos. unfold f. cbn [fst snd]. split; [exact FD|].
      assert (ED' : Rabs (val (f_delta hypot atan2 r1 r2 p1 p2) - ex) <= E). { eapply Rle_trans; [exact ED|]. unfold E. apply Rmult_le_compat_r; [lra|]. apply Rplus_le_compat_r. apply Rmult_le_compat_l; lra. }
      split; [exact ED'|]. apply Rabs_le_inv in ED'. apply Rabs_le. lra. }
    assert (FX : Forall2 (fun x d => Rabs (val x - d) <= E) xs row).
    { apply Forall2_map_l. eapply Forall2_impl_in; [|exact FR]. intros b d' Ib Id H. apply (ACC b d' Ib Id H). }
    assert (ALL : forall z, In z xs -> fin z /\ Rabs (val z) <= 1001 / 1000 * (X + 1)).
    { intros z Hz. unfold xs in Hz. apply in_map_iff in Hz as (b & <- & Ib). apply In_nth_error in Ib as (m & Em). pose proof (F2_length _ _ _ FR) as LR.
      destruct (nth_error row m) as [d'|] eqn:Ed; [|apply nth_error_None in Ed; assert (m < length (combine rap_2 pol_2))%nat by (apply nth_error_Some; congruence); lia].
      destruct (ACC b d') as (A & _ & B); [eapply nth_error_In; eassumption | eapply nth_error_In; eassumption | eapply Forall2_nth_both; eassumption | auto]. }
    pose proof (nth_error_In _ _ Hx) as Ix. destruct (ALL x Ix) as (Fx & Bx). pose proof (Forall2_nth_both _ _ _ _ _ _ FX Hx Hd) as HE. cbv beta in HE.
    assert (P399 : 2 * 2 ^ 399 = 2 ^ 400) by reflexivity. assert (I4 : / 2 ^ 400 <= 1) by (rewrite <- Rinv_1; apply Rinv_le_contravar; [lra | apply pow_R1_Rle; lra]).
    set (sg := sqrt (variance row)) in *. assert (SG : 0 < sg). { destruct (sqrt_pos (variance row)) as [H|H]; [exact H|]. exfalso. unfold sg in SP. rewrite <- H in SP. lra. }
    assert (RX : (X + 1) / sg <= rho) by (apply ratio_le; assumption). assert (IS : 0 < / sg) by (apply Rinv_0_lt_compat, SG).
    assert (ES : E / sg <= (2 * k + 4) * ru).
    { apply Rle_trans with ((2 * k + 4) * u * ((X + 1) / sg)).
      - unfold Rdiv. rewrite <- Rmult_assoc. apply Rmult_le_compat_r; [lra|]. unfold E. assert (0 <= k * u) by (apply Rmult_le_pos; lra). assert (0 <= u * X) by (apply Rmult_le_pos; lra). lra.
      - unfold ru. replace ((2 * k + 4) * (rho * u)) with ((2 * k + 4) * u * rho) by ring. apply Rmult_le_compat_l; [apply Rmult_le_pos; lra | exact RX]. }
    assert (PS : n * u * (1001 / 1000 * (X + 1)) / sg <= 1001 / 1000 * (n * ru)).
    { unfold Rdiv. replace (n * u * (1001 * / 1000 * (X + 1)) * / sg) with (1001 / 1000 * (n * u) * ((X + 1) / sg)) by (unfold Rdiv; ring). unfold ru. replace (1001 * / 1000 * (n * (rho * u))) with (1001 / 1000 * (n * u) * rho) by (unfold Rdiv; ring).
      apply Rmult_le_compat_l; [|exact RX]. apply Rmult_le_pos; [lra | apply Rmult_le_pos; lra]. }
    assert (BACK : forall a b, a / sg <= b -> a <= b * sg). { intros a b H. apply (Rmult_le_compat_r sg) in H; [|lra]. unfold Rdiv in H. rewrite Rmult_assoc, Rinv_l in H by lra. lra. }
    pose proof (BACK _ _ ES) as ES'. pose proof (BACK _ _ PS) as PS'.
    assert (B1 : (2 * k + 4) * ru * sg <= / 10000 * sg) by (apply Rmult_le_compat_r; lra). assert (B2 : 1001 / 1000 * (n * ru) * sg <= 1001 / 1000 * / 100000 * sg) by (apply Rmult_le_compat_r; lra).
    destruct (kernel_close expm1 k xs row v (1001 / 1000 * (X + 1)) E x d K GE FX) as (A1 & A2 & A3 & A4); try assumption.
    - intros Z. rewrite Z in Ix. exact Ix.
    - apply Forall_forall. intros z Hz. apply ALL, Hz.
    - intros z Hz. apply ALL, Hz.
    - lra.
    - lra.
    - rewrite LX, <- En. exact NU.
    - fold sg. lra.
    - rewrite LX, <- En. fold sg. lra.
    - fold c in A3, A4. split; [exact A1|]. split; [exact A2|]. split; [exact A3|]. rewrite LX, <- En in A4. fold sg in A4. lra.
  Qed.

  (** The momentum half. *)
  Lemma hypot_near Y p : usable p -> pt_of p <= Y -> / 2 ^ 400 <= Y -> fin (f_abs hypot p) /\ Rabs (val (f_abs hypot p) - pt_of p) <= 1001 / 1000 * (k * u) * Y /\ Rabs (val (f_abs hypot p)) <= 1001 / 1000 * Y.
  Proof.
    intros ((F1 & B1) & (F2 & B2) & _) HY YL. destruct ru_facts as (U0 & U1 & U2 & N0 & N2 & K0 & K2 & NU & KU0 & KU). pose proof u_b as [_ UB]. fold (re p) (im p) in B1, B2.
    assert (P0 : 0 <= pt_of p) by apply sqrt_pos. pose proof mn_pos as MN.
    assert (BP : pt_of p <= 2 ^ 1020).
    { unfold pt_of. rewrite <- (sqrt_square (2 ^ 1020)) by (apply pow_le; lra). apply sqrt_le_1_alt. assert (A : forall a, Rabs a <= 2 ^ 500 -> a * a <= 2 ^ 500 * 2 ^ 500).
      { intros a Ha. rewrite <- (Rabs_pos_eq (a * a)) by apply Rle_0_sqr. rewrite Rabs_mult. apply Rmult_le_compat; auto using Rabs_pos. }
      pose proof (A _ B1). pose proof (A _ B2). assert (2 * (2 ^ 500 * 2 ^ 500) <= 2 ^ 1020 * 2 ^ 1020). { replace (2 * (2 ^ 500 * 2 ^ 500)) with (2 ^ 1 * (2 ^ 500 * 2 ^ 500)) by (f_equal; ring). rewrite <- !pow_add. apply Rle_pow; [lra | cbn; lia]. } unfold re, im in *. lra. }
    destruct (GH (fst p) (snd p) F1 F2 BP) as (FH & CH). change (sqrt (val (fst p) * val (fst p) + val (snd p) * val (snd p))) with (pt_of p) in CH. unfold f_abs. split; [exact FH|].
    assert (MY : min_normal <= / 1000 * Y). { assert (I4 : / 2 ^ 1000 <= / 2 ^ 400) by (apply Rinv_le_contravar; [apply pow_lt; lra | apply Rle_pow; [lra | lia]]). pose proof tiny_mn. lra. }
    assert (CE : Rabs (val (hypot (fst p) (snd p)) - pt_of p) <= 1001 / 1000 * (k * u) * Y).
    { eapply Rle_trans; [exact CH|]. replace (1001 / 1000 * (k * u) * Y) with (k * u * (1001 / 1000 * Y)) by ring. apply Rmult_le_compat_l; [exact KU0|]. rewrite Rabs_pos_eq by exact P0. lra. }
    split; [exact CE|]. assert (KY : k * u * Y <= / 10000 * Y) by (apply Rmult_le_compat_r; lra). apply Rabs_le_inv in CE. apply Rabs_le. lra.
  Qed.
  Lemma momentum_half Y p1 pol_2 v p2 : usable p1 -> (forall p, In p pol_2 -> usable p) -> pt_of p1 <= Y -> (forall p, In p pol_2 -> pt_of p <= Y) -> / 2 ^ 400 <= Y -> Y <= 2 ^ 398 ->
    n = INR (length pol_2) -> Y <= rho * sqrt (variance (map pt_of pol_2)) -> f_var (map (f_abs hypot) pol_2) v -> In p2 pol_2 ->
    let c := expm1 (f_exponent (fdiv fone v) (fsub (f_abs hypot p1) (f_abs hypot p2))) in
    0 < val v /\ fin v /\ fin c /\ Rabs (val c + 1 - exp (- ((pt_of p1 - pt_of p2) * (pt_of p1 - pt_of p2)) / (2 * variance (map pt_of pol_2)))) <= (8 * k + 25 * n + 9) * ru.
  Proof.
    intros Up Hp HY1 HY YL YU En SP HV Ip c. destruct ru_facts as (U0 & U1 & U2 & N0 & N2 & K0 & K2 & NU & KU0 & KU). pose proof u_b as [_ UB].
    assert (Y0 : 0 < Y) by (assert (0 < / 2 ^ 400) by (apply Rinv_0_lt_compat, pow_lt; lra); lra).
    destruct (hypot_near Y p1 Up HY1 YL) as (F1 & E1 & B1). destruct (hypot_near Y p2 (Hp p2 Ip) (HY p2 Ip) YL) as (F2 & E2 & B2).
    set (a := f_abs hypot p1) in *. set (b := f_abs hypot p2) in *.
    assert (DB : Rabs (val a - val b) <= 2002 / 1000 * Y). { unfold Rminus. eapply Rle_trans; [apply Rabs_triang|]. rewrite Rabs_Ropp. lra. }
    assert (P398 : 2 ^ 398 * 4 = 2 ^ 400) by (replace 4 with (2 ^ 2) by ring; rewrite <- pow_add; reflexivity). pose proof p400 as [Q1 Q2]. pose proof pow1000 as PB.
    assert (SM : 2 ^ 400 <= 2 ^ 400 * 2 ^ 400). { rewrite <- (Rmult_1_r (2 ^ 400)) at 1. apply Rmult_le_compat_l; lra. }
    destruct (fsub_ok a b F1 F2) as (VS & FS & _); [apply no_overflow; lra|]. destruct (sub_rel a b) as (e & He & EE). rewrite EE in VS. set (x := fsub a b) in *.
    assert (eb : Rabs ((val a - val b) * e) <= 2002 / 1000 * Y * u) by (rewrite Rabs_mult; apply Rmult_le_compat; auto using Rabs_pos).
    set (E := (2002 / 1000 * (k * u) + 2002 / 1000 * u) * Y).
    assert (KY : 0 <= k * u * Y) by (apply Rmult_le_pos; lra). assert (UY : 0 < u * Y) by (apply Rmult_lt_0_compat; lra). assert (UY1 : u * Y <= / 1000 * Y) by (apply Rmult_le_compat_r; lra).
    assert (HE : Rabs (val x - (pt_of p1 - pt_of p2)) <= E).
    { rewrite VS. replace ((val a - val b) * (1 + e) - (pt_of p1 - pt_of p2)) with ((val a - pt_of p1) + (- (val b - pt_of p2) + (val a - val b) * e)) by ring.
      eapply Rle_trans; [apply Rabs_triang|]. assert (Rabs (- (val b - pt_of p2) + (val a - val b) * e) <= 1001 / 1000 * (k * u) * Y + 2002 / 1000 * Y * u) by (eapply Rle_trans; [apply Rabs_triang|]; rewrite Rabs_Ropp; lra). unfold E. lra. }
    assert (BX : Rabs (val x) <= 201 / 100 * Y). { rewrite VS. replace ((val a - val b) * (1 + e)) with ((val a - val b) + (val a - val b) * e) by ring. eapply Rle_trans; [apply Rabs_triang|]. lra. }
    set (xs := map (f_abs hypot) pol_2) in *. assert (LX : length xs = length pol_2) by apply map_length.
    assert (FX : Forall2 (fun x d => Rabs (val x - d) <= E) xs (map pt_of pol_2)).
    { apply Forall2_map_both. intros q Iq. destruct (hypot_near Y q (Hp q Iq) (HY q Iq) YL) as (_ & H & _). unfold E. lra. }
    assert (ALL : forall z, In z xs -> fin z /\ Rabs (val z) <= 201 / 100 * Y).
    { intros z Hz. unfold xs in Hz. apply in_map_iff in Hz as (q & <- & Iq). destruct (hypot_near Y q (Hp q Iq) (HY q Iq) YL) as (A & _ & B). split; [exact A | lra]. }
    set (ds := map pt_of pol_2) in *. set (sg := sqrt (variance ds)) in *. assert (SG : 0 < sg). { destruct (sqrt_pos (variance ds)) as [H|H]; [exact H|]. exfalso. unfold sg in SP. rewrite <- H in SP. lra. }
    assert (RY : Y / sg <= rho) by (apply ratio_le; assumption). assert (IS : 0 < / sg) by (apply Rinv_0_lt_compat, SG).
    assert (ES : E / sg <= (2002 / 1000 * k + 2002 / 1000) * ru).
    { unfold Rdiv at 1. unfold E, ru. replace ((2002 / 1000 * (k * u) + 2002 / 1000 * u) * Y * / sg) with ((2002 / 1000 * k + 2002 / 1000) * u * (Y / sg)) by (unfold Rdiv; ring).
      replace ((2002 / 1000 * k + 2002 / 1000) * (rho * u)) with ((2002 / 1000 * k + 2002 / 1000) * u * rho) by ring. apply Rmult_le_compat_l; [apply Rmult_le_pos; lra | exact RY]. }
    assert (PS : n * u * (201 / 100 * Y) / sg <= 201 / 100 * (n * ru)).
    { unfold ru. replace (n * u * (201 / 100 * Y) / sg) with (201 / 100 * (n * u) * (Y / sg)) by (unfold Rdiv; ring). replace (201 / 100 * (n * (rho * u))) with (201 / 100 * (n * u) * rho) by ring.
      apply Rmult_le_compat_l; [|exact RY]. apply Rmult_le_pos; [lra | apply Rmult_le_pos; lra]. }
    assert (BACK : forall a b, a / sg <= b -> a <= b * sg). { intros a' b' H. apply (Rmult_le_compat_r sg) in H; [|lra]. unfold Rdiv in H. rewrite Rmult_assoc, Rinv_l in H by lra. lra. }
    pose proof (BACK _ _ ES) as ES'. pose proof (BACK _ _ PS) as PS'.
    assert (C1 : (2002 / 1000 * k + 2002 / 1000) * ru * sg <= / 10000 * sg) by (apply Rmult_le_compat_r; lra). assert (C2 : 201 / 100 * (n * ru) * sg <= 201 / 100 * / 100000 * sg) by (apply Rmult_le_compat_r; lra).
    destruct (kernel_close expm1 k xs ds v (201 / 100 * Y) E x (pt_of p1 - pt_of p2) K GE FX) as (A1 & A2 & A3 & A4); try assumption.
    - intros Z. assert (In b xs) by (apply in_map; exact Ip). rewrite Z in H. exact H.
    - apply Forall_forall. intros z Hz. apply ALL, Hz.
    - intros z Hz. apply ALL, Hz.
    - lra.
    - unfold E. lra.
    - rewrite LX, <- En. exact NU.
    - fold sg. lra.
    - rewrite LX, <- En. fold sg. lra.
    - fold c in A3, A4. split; [exact A1|]. split; [exact A2|]. split; [exact A3|]. rewrite LX, <- En in A4. fold sg in A4. lra.
  Qed.
End Costs.

(** Every entry of the computed matrix is within this of the exact cost, whatever order the additions are made in. *)
Definition cost_error (k rho : R) (n : nat) : R := (38 * INR n + 16 * k + 27) * rho * u.
Lemma nth_error_map_f {A B} (f : A -> B) l i x : nth_error l i = Some x -> nth_error (map f l) i = Some (f x).
Proof. revert i. induction l as [|a l IH]; intros [|i] H; cbn in *; try discriminate; [congruence | apply IH, H]. Qed.
Lemma nth_error_lt {A} (l : list A) i : (i < length l)%nat -> exists x, nth_error l i = Some x.
Proof. intros H. destruct (nth_error l i) as [x|] eqn:E; [exists x; reflexivity | apply nth_error_None in E; lia]. Qed.

Theorem C236_costs : forall hypot atan2 expm1 k rap_1 rap_2 pol_1 pol_2 D X Y rho out,
  0 <= k <= 1000 -> good_hypot k hypot -> good_atan2 k atan2 -> accurate_expm1 k expm1 ->
  length rap_1 = length pol_1 -> length rap_2 = length pol_2 -> (forall r, In r (rap_1 ++ rap_2) -> fin r /\ Rabs (val r) <= 2 ^ 1000) -> (forall p, In p (pol_1 ++ pol_2) -> usable p) ->
  exact_distances rap_1 rap_2 pol_1 pol_2 D -> 1 <= rho -> spread_out pol_1 pol_2 D X Y rho -> 100000 * (INR (length pol_2) + k + 1) * rho * u <= 1 ->
  f_assignment_cost hypot atan2 expm1 rap_1 rap_2 pol_1 pol_2 out ->
  exists C, out = Ok C /\ length C = length pol_1 /\ forall i j, (i < length pol_1)%nat -> (j < length pol_2)%nat ->
    exists c, entry C i j c /\ fin c /\ Rabs (val c - exact_cost pol_1 pol_2 D i j) <= cost_error k rho (length pol_2).
Proof.
  intros hypot atan2 expm1 k rap_1 rap_2 pol_1 pol_2 D X Y rho out K GH GA GE L1 L2 HR HP HD R1 (SX & SY & X0 & X1 & YL & YU & DX & DY) SM (vp & HVP & HO).
  pose proof u_b as [U0 U1]. set (n := INR (length pol_2)) in *.
  assert (Y0 : 0 < Y) by (assert (0 < / 2 ^ 400) by (apply Rinv_0_lt_compat, pow_lt; lra); lra).
  assert (NE : pol_2 <> []). { intros ->. cbn in DY. assert (Z : variance [] = 0) by (unfold variance, mean; cbn; unfold Rdiv; ring). rewrite Z, sqrt_0 in DY. lra. }
  assert (N1 : 1 <= n). { unfold n. change 1 with (INR 1). apply le_INR. destruct pol_2; [contradiction | cbn; lia]. }
  assert (MH : forall p1 p2, In p1 (pol_1 ++ pol_2) -> In p2 pol_2 -> let c := expm1 (f_exponent (fdiv fone vp) (fsub (f_abs hypot p1) (f_abs hypot p2))) in
    0 < val vp /\ fin vp /\ fin c /\ Rabs (val c + 1 - exp (- ((pt_of p1 - pt_of p2) * (pt_of p1 - pt_of p2)) / (2 * variance (map pt_of pol_2)))) <= (8 * k + 25 * n + 9) * (rho * u)).
  { intros p1 p2 I1 I2. apply (momentum_half hypot expm1 k K GH GE rho n N1 R1 SM Y p1 pol_2 vp p2); auto; intros; [apply HP | apply SY]; apply in_or_app; right; assumption. }
  assert (SV : feq vp fzero = false). { destruct pol_2 as [|q l]; [contradiction|]. destruct (MH q q) as (A & B & _); [apply in_or_app; right; left; reflexivity | left; reflexivity|]. apply pos_not_zero; assumption. }
  rewrite SV in HO. destruct HO as (C & -> & HC). exists C. split; [reflexivity|].
  assert (LC : length C = length pol_1). { rewrite <- (F2_length _ _ _ HC), combine_length. unfold f_distances. rewrite map_length, combine_length. lia. }
  split; [exact LC|]. intros i j Hi Hj.
  destruct (nth_error_lt pol_1 i Hi) as (p1 & E1). destruct (nth_error_lt rap_1 i ltac:(lia)) as (r1 & Er1). destruct (nth_error_lt pol_2 j Hj) as (p2 & E2). destruct (nth_error_lt rap_2 j ltac:(lia)) as (r2 & Er2).
  destruct (nth_error_lt C i ltac:(lia)) as (crow & EC).
  pose proof (nth_combine _ _ _ _ _ Er1 E1) as Ec1. pose proof (nth_combine _ _ _ _ _ Er2 E2) as Ec2.
  assert (LD : length D = length pol_1) by (rewrite <- (F2_length _ _ _ HD), combine_length; lia). destruct (nth_error_lt D i ltac:(lia)) as (row & ED).
  pose proof (Forall2_nth_both _ _ _ _ _ _ HD Ec1 ED) as FR. cbv beta in FR. assert (LR : length row = length pol_2) by (rewrite <- (F2_length _ _ _ FR), combine_length; lia). destruct (nth_error_lt row j ltac:(lia)) as (d & Ed).
  set (f := fun b => f_delta hypot atan2 r1 (fst b) p1 (snd b)).
  assert (EDR : nth_error (f_distances hypot atan2 rap_1 rap_2 pol_1 pol_2) i = Some (map f (combine rap_2 pol_2))) by (unfold f_distances; rewrite (nth_error_map_f _ _ _ _ Ec1); reflexivity).
  destruct (Forall2_nth_both _ _ _ _ _ _ HC (nth_combine _ _ _ _ _ EDR E1) EC) as (vd & HVD & HL & HE). cbn [fst snd] in *.
  pose proof (nth_error_map_f f _ _ _ Ec2) as Ex. destruct (HR r1) as (Fr1 & Br1); [apply in_or_app; left; eapply nth_error_In, Er1|].
  pose proof (nth_error_In _ _ ED) as ID. pose proof (nth_error_In _ _ E1) as I1. pose proof (nth_error_In _ _ E2) as I2.
  destruct (distance_half hypot atan2 expm1 k K GH GA GE rho n N1 R1 SM X rap_2 pol_2 r1 p1 row vd (f (r2, p2)) d j Fr1 Br1) as (A1 & A2 & A3 & A4); try assumption; try reflexivity.
  - apply HP, in_or_app. left. exact I1.
  - intros r Ir. apply HR, in_or_app. right. exact Ir.
  - intros p Iq. apply HP, in_or_app. right. exact Iq.
  - intros d' Id. apply (SX row d' ID Id).
  - apply DX, ID.
  - destruct (MH p1 p2) as (_ & _ & B3 & B4); [apply in_or_app; left; exact I1 | exact I2|]. cbv zeta in A3, A4, B3, B4.
    specialize (HE (pos_not_zero _ A2 A1)). set (c1 := expm1 (f_exponent (fdiv fone vd) (f (r2, p2)))) in *. set (c2 := expm1 (f_exponent (fdiv fone vp) (fsub (f_abs hypot p1) (f_abs hypot p2)))) in *.
    exists (fneg (fadd c1 c2)).
    assert (EN : entry C i j (fneg (fadd c1 c2))).
    { exists crow. split; [exact EC|]. rewrite HE. erewrite nth_error_map_f; [|apply nth_combine; [exact Ex | apply nth_error_map_f; exact E2]]. reflexivity. }
    split; [exact EN|].
    set (g1 := exp (- (d * d) / (2 * variance row))) in *. set (g2 := exp (- ((pt_of p1 - pt_of p2) * (pt_of p1 - pt_of p2)) / (2 * variance (map pt_of pol_2)))) in *.
    assert (EX : exact_cost pol_1 pol_2 D i j = 2 - g1 - g2).
    { unfold exact_cost, pair_cost. rewrite (nth_error_nth _ _ [] ED), (nth_error_nth _ _ 0 Ed), (nth_error_nth _ _ 0 (nth_error_map_f pt_of _ _ _ E1)), (nth_error_nth _ _ 0 (nth_error_map_f pt_of _ _ _ E2)). reflexivity. }
    assert (G1 : 0 <= g1 <= 1). { unfold g1. replace (- (d * d) / (2 * variance row)) with (- (d * d / (2 * variance row))) by (unfold Rdiv; ring). destruct (exp_neg_1 (d * d / (2 * variance row))); [|lra]. apply Rmult_le_pos; [apply Rle_0_sqr|].
      left. apply Rinv_0_lt_compat. assert (0 < variance row); [|lra]. destruct (Rle_dec (variance row) 0) as [Z|Z]; [|lra]. exfalso. pose proof (DX row ID) as Q. rewrite sqrt_neg_0 in Q by exact Z. lra. }
    assert (G2 : 0 <= g2 <= 1). { unfold g2. set (q := (pt_of p1 - pt_of p2) * (pt_of p1 - pt_of p2)). replace (- q / (2 * variance (map pt_of pol_2))) with (- (q / (2 * variance (map pt_of pol_2)))) by (unfold Rdiv; ring). destruct (exp_neg_1 (q / (2 * variance (map pt_of pol_2)))); [|lra]. apply Rmult_le_pos; [apply Rle_0_sqr|].
      left. apply Rinv_0_lt_compat. assert (0 < variance (map pt_of pol_2)); [|lra]. destruct (Rle_dec (variance (map pt_of pol_2)) 0) as [Z|Z]; [|lra]. exfalso. rewrite sqrt_neg_0 in DY by exact Z. lra. }
    destruct (ru_facts k K rho n N1 R1 SM) as (_ & W1 & W2 & N0 & N2 & K0 & K2 & _). set (ru := rho * u) in *.
    pose proof (Rabs_le_inv _ _ A4) as A4'. pose proof (Rabs_le_inv _ _ B4) as B4'. assert (SB : Rabs (val c1 + val c2) <= 201 / 100) by (apply Rabs_le; lra).
    assert (P : 2 ^ 2 <= SpecIEEE.huge) by (unfold SpecIEEE.huge; apply Rle_pow; [lra | lia]).
    destruct (fadd_ok c1 c2 A3 B3) as (VS & FS); [apply no_overflow; lra|]. split; [apply fneg_fin, FS|].
    destruct (add_rel c1 c2) as (e & He & EE). rewrite fneg_ok, VS, EE, EX.
    assert (eb : Rabs ((val c1 + val c2) * e) <= 201 / 100 * u) by (rewrite Rabs_mult; apply Rmult_le_compat; auto using Rabs_pos).
    replace (- ((val c1 + val c2) * (1 + e)) - (2 - g1 - g2)) with (- ((val c1 + 1 - g1) + ((val c2 + 1 - g2) + (val c1 + val c2) * e))) by ring. rewrite Rabs_Ropp.
    eapply Rle_trans; [apply Rabs_triang|]. assert (T : Rabs ((val c2 + 1 - g2) + (val c1 + val c2) * e) <= (8 * k + 25 * n + 9) * ru + 201 / 100 * u) by (eapply Rle_trans; [apply Rabs_triang|]; lra).
    unfold cost_error. fold n. replace ((38 * n + 16 * k + 27) * rho * u) with ((38 * n + 16 * k + 27) * ru) by (unfold ru; ring). lra.
Qed.

(** * The assignment *)
Lemma total_close c1 c2 e a : (forall i j, In (i, j) a -> Rabs (c1 i j - c2 i j) <= e) -> Rabs (total c1 a - total c2 a) <= INR (length a) * e.
Proof.
  unfold total. induction a as [|(i, j) a IH]; intros H; [cbn; rewrite Rminus_0_r, Rabs_R0; lra|]. cbn [map rsum length fst snd]. rewrite S_INR.
  replace (c1 i j + rsum (map (fun p => c1 (fst p) (snd p)) a) - (c2 i j + rsum (map (fun p => c2 (fst p) (snd p)) a))) with
    ((c1 i j - c2 i j) + (rsum (map (fun p => c1 (fst p) (snd p)) a) - rsum (map (fun p => c2 (fst p) (snd p)) a))) by ring.
  eapply Rle_trans; [apply Rabs_triang|]. specialize (IH (fun i j I => H i j (or_intror I))). specialize (H i j (or_introl eq_refl)). lra.
Qed.
Lemma near_best n1 n2 c1 c2 e a b : (forall i j, (i < n1)%nat -> (j < n2)%nat -> Rabs (c1 i j - c2 i j) <= e) -> best_matching n1 n2 c1 a -> matching n1 n2 b ->
  total c2 a <= total c2 b + 2 * INR (Nat.min n1 n2) * e.
Proof.
  intros H (Ma & _ & Ha) Mb. assert (T : forall m, matching n1 n2 m -> Rabs (total c1 m - total c2 m) <= INR (Nat.min n1 n2) * e).
  { intros m (_ & _ & R & L). rewrite <- L. apply total_close. intros i j I. destruct (R i j I). apply H; assumption. }
  pose proof (Rabs_le_inv _ _ (T a Ma)). pose proof (Rabs_le_inv _ _ (T b Mb)). specialize (Ha b Mb). lra.
Qed.

(** The cheapest matching of the computed costs is, by the exact costs, within this of the cheapest. *)
Definition computed_cost (C : list (list f64)) (i j : nat) : R := val (nth j (nth i C []) fzero).
Theorem C237_near_best : forall hypot atan2 expm1 k rap_1 rap_2 pol_1 pol_2 D X Y rho C a b,
  0 <= k <= 1000 -> good_hypot k hypot -> good_atan2 k atan2 -> accurate_expm1 k expm1 ->
  length rap_1 = length pol_1 -> length rap_2 = length pol_2 -> (forall r, In r (rap_1 ++ rap_2) -> fin r /\ Rabs (val r) <= 2 ^ 1000) -> (forall p, In p (pol_1 ++ pol_2) -> usable p) ->
  exact_distances rap_1 rap_2 pol_1 pol_2 D -> 1 <= rho -> spread_out pol_1 pol_2 D X Y rho -> 100000 * (INR (length pol_2) + k + 1) * rho * u <= 1 ->
  f_assignment_cost hypot atan2 expm1 rap_1 rap_2 pol_1 pol_2 (Ok C) ->
  best_matching (length pol_1) (length pol_2) (computed_cost C) a -> matching (length pol_1) (length pol_2) b ->
  total (exact_cost pol_1 pol_2 D) a <= total (exact_cost pol_1 pol_2 D) b + 2 * INR (Nat.min (length pol_1) (length pol_2)) * cost_error k rho (length pol_2).
Proof.
  intros hypot atan2 expm1 k rap_1 rap_2 pol_1 pol_2 D X Y rho C a b K GH GA GE L1 L2 HR HP HD R1 SO SM HC BA MB.
  destruct (C236_costs hypot atan2 expm1 k rap_1 rap_2 pol_1 pol_2 D X Y rho (Ok C) K GH GA GE L1 L2 HR HP HD R1 SO SM HC) as (C' & E & _ & H). injection E as <-.
  apply (near_best _ _ (computed_cost C)); [|exact BA | exact MB]. intros i j Hi Hj. destruct (H i j Hi Hj) as (c & (row & Er & Ec) & _ & HE).
  unfold computed_cost. rewrite (nth_error_nth _ _ [] Er), (nth_error_nth _ _ fzero Ec). exact HE.
Qed.

Lemma same_pairs (a b : list (nat * nat)) : StronglySorted lt (map fst a) -> StronglySorted lt (map fst b) -> Permutation a b -> a = b.
Proof.
  revert b. induction a as [|x a IH]; intros b Sa Sb P; [apply Permutation_nil in P; congruence|].
  destruct b as [|y b]; [apply Permutation_sym, Permutation_nil in P; discriminate|]. cbn in Sa, Sb. inversion Sa as [|? ? Sa' Fa]; subst. inversion Sb as [|? ? Sb' Fb]; subst. rewrite Forall_forall in Fa, Fb.
  assert (E : x = y).
  { assert (Ix : In x (y :: b)) by (eapply Permutation_in; [exact P | left; reflexivity]). assert (Iy : In y (x :: a)) by (eapply Permutation_in; [apply Permutation_sym, P | left; reflexivity]).
    destruct Ix as [E|Ix]; [congruence|]. destruct Iy as [E|Iy]; [congruence|]. apply (in_map fst) in Ix, Iy. specialize (Fb _ Ix). specialize (Fa _ Iy). lia. }
  subst y. f_equal. apply IH; [exact Sa' | exact Sb' | eapply Permutation_cons_inv; exact P].
Qed.
(** And it is the exact assignment whenever every other matching costs more than that. *)
Theorem C237_same : forall hypot atan2 expm1 k rap_1 rap_2 pol_1 pol_2 D X Y rho C a b,
  0 <= k <= 1000 -> good_hypot k hypot -> good_atan2 k atan2 -> accurate_expm1 k expm1 ->
  length rap_1 = length pol_1 -> length rap_2 = length pol_2 -> (forall r, In r (rap_1 ++ rap_2) -> fin r /\ Rabs (val r) <= 2 ^ 1000) -> (forall p, In p (pol_1 ++ pol_2) -> usable p) ->
  exact_distances rap_1 rap_2 pol_1 pol_2 D -> 1 <= rho -> spread_out pol_1 pol_2 D X Y rho -> 100000 * (INR (length pol_2) + k + 1) * rho * u <= 1 ->
  f_assignment_cost hypot atan2 expm1 rap_1 rap_2 pol_1 pol_2 (Ok C) ->
  best_matching (length pol_1) (length pol_2) (computed_cost C) a -> best_matching (length pol_1) (length pol_2) (exact_cost pol_1 pol_2 D) b ->
  (forall m, matching (length pol_1) (length pol_2) m -> ~ Permutation m b ->
     total (exact_cost pol_1 pol_2 D) b + 2 * INR (Nat.min (length pol_1) (length pol_2)) * cost_error k rho (length pol_2) < total (exact_cost pol_1 pol_2 D) m) ->
  a = b.
Proof.
  intros hypot atan2 expm1 k rap_1 rap_2 pol_1 pol_2 D X Y rho C a b K GH GA GE L1 L2 HR HP HD R1 SO SM HC BA BB U.
  apply same_pairs; [apply BA | apply BB|]. destruct (Classical_Prop.classic (Permutation a b)) as [P|P]; [exact P|]. exfalso.
  pose proof (U a (proj1 BA) P) as H.
  pose proof (C237_near_best hypot atan2 expm1 k rap_1 rap_2 pol_1 pol_2 D X Y rho C a b K GH GA GE L1 L2 HR HP HD R1 SO SM HC BA (proj1 BB)). lra.
Qed.

(** * A case: one object on the x-axis; two candidates there, of momentum 1 and 2, the second one unit of rapidity away. *)
Lemma ref_expm1_accurate : accurate_expm1 1 ref_expm1.
Proof.
  intros x F H. assert (E : ref_expm1 x = of_R (exp (val x) - 1)) by (destruct x as [|[]| |]; try reflexivity; discriminate F). rewrite E.
  assert (B : 0 < exp (val x) <= 1) by (rewrite <- (Ropp_involutive (val x)); apply exp_neg_1; lra).
  assert (P : 2 <= SpecIEEE.huge) by (unfold SpecIEEE.huge; rewrite <- (pow_1 2) at 1; apply Rle_pow; [lra | lia]).
  destruct (of_R_ok (exp (val x) - 1)) as (F2 & V2); [apply no_overflow; apply Rabs_le; lra|]. split; [exact F2|]. rewrite V2. unfold P_Float9.close.
  eapply Rle_trans; [apply nearest_err_any|]. lra.
Qed.
Lemma axis_gap x y : 0 < val x -> 0 < val y -> gap (x, fzero) (y, fzero) 0.
Proof.
  intros X Y. pose proof PI_RGT_0. split; [lra|]. unfold re, im. cbn [fst snd]. change (val fzero) with 0. intros a b A B.
  rewrite <- (atan2_unique (val x) 0 a) by (try exact A; nra). rewrite <- (atan2_unique (val y) 0 b) by (try exact B; nra). rewrite !DeltaRProofs.atan2_0_nonneg by lra. exists 0%Z. cbn. ring.
Qed.
Lemma axis_pt x : 0 <= val x -> pt_of (x, fzero) = val x.
Proof. intros H. unfold pt_of, re, im. cbn [fst snd]. change (val fzero) with 0. replace (val x * val x + 0 * 0) with (val x * val x) by ring. apply sqrt_square, H. Qed.
Definition ftwo : f64 := lit 2 0.
Lemma two_variance a b : variance [a; b] = (a - b) * (a - b) / 4.
Proof. unfold variance, mean. cbn [map rsum length INR]. field. Qed.

Example C236_case : let pol_1 := [(fone, fzero)] in let pol_2 := [(fone, fzero); (ftwo, fzero)] in let D := [[0; 1]] in
  good_hypot 1 ref_hypot /\ good_atan2 1 ref_atan2 /\ accurate_expm1 1 ref_expm1 /\
  (forall r, In r ([fzero] ++ [fzero; fone]) -> fin r /\ Rabs (val r) <= 2 ^ 1000) /\ (forall p, In p (pol_1 ++ pol_2) -> usable p) /\
  exact_distances [fzero] [fzero; fone] pol_1 pol_2 D /\ spread_out pol_1 pol_2 D 1 2 4 /\ 100000 * (INR (length pol_2) + 1 + 1) * 4 * u <= 1 /\
  exact_cost pol_1 pol_2 D 0 0 = 0 /\ exact_cost pol_1 pol_2 D 0 1 = 2 - 2 * exp (-2).
Proof.
  intros pol_1 pol_2 D. destruct (lit_int 1 ltac:(lia)) as (V1 & F1). destruct (lit_int 2 ltac:(lia)) as (V2 & F2). fold fone in V1, F1. fold ftwo in V2, F2. pose proof u_b as [U0 U1].
  assert (P1000 : 4 <= 2 ^ 1000) by (apply Rle_trans with (2 ^ 2); [simpl; lra | apply Rle_pow; [lra | lia]]).
  assert (P500 : 4 <= 2 ^ 500) by (apply Rle_trans with (2 ^ 2); [simpl; lra | apply Rle_pow; [lra | lia]]).
  assert (P398 : 4 <= 2 ^ 398) by (apply Rle_trans with (2 ^ 2); [simpl; lra | apply Rle_pow; [lra | lia]]). assert (P399 : 4 <= 2 ^ 399) by (apply Rle_trans with (2 ^ 2); [simpl; lra | apply Rle_pow; [lra | lia]]).
  assert (I500 : / 2 ^ 500 <= 1) by (rewrite <- Rinv_1; apply Rinv_le_contravar; lra). assert (I400 : / 2 ^ 400 <= 1) by (rewrite <- Rinv_1; apply Rinv_le_contravar; [lra | apply pow_R1_Rle; lra]).
  assert (PT1 : pt_of (fone, fzero) = 1) by (rewrite axis_pt; rewrite V1; lra). assert (PT2 : pt_of (ftwo, fzero) = 2) by (rewrite axis_pt; rewrite V2; lra).
  assert (US : forall x, fin x -> 1 <= val x <= 2 -> usable (x, fzero)).
  { intros x Fx Bx. split; [|split]; cbn [fst snd]; [split; [exact Fx | rewrite Rabs_pos_eq; lra] | split; [reflexivity | change (val fzero) with 0; rewrite Rabs_R0; lra] |]. fold (pt_of (x, fzero)). rewrite axis_pt; lra. }
  assert (SQ : sqrt (/ 4) = / 2) by (replace (/ 4) with (/ 2 * / 2) by field; apply sqrt_square; lra).
  assert (VR : variance [0; 1] = / 4) by (rewrite two_variance; field). assert (VP : variance (map pt_of pol_2) = / 4) by (unfold pol_2; cbn [map]; rewrite PT1, PT2, two_variance; field).
  split; [apply ref_hypot_good|]. split; [apply ref_atan2_good|]. split; [apply ref_expm1_accurate|]. split; [|split; [|split; [|split; [|split; [|split]]]]].
  - intros r Hr. cbn [app In] in Hr. assert (HZ : fin fzero /\ Rabs (val fzero) <= 2 ^ 1000) by (split; [reflexivity | change (val fzero) with 0; rewrite Rabs_R0; lra]).
    destruct Hr as [<-|[<-|[<-|[]]]]; [exact HZ | exact HZ | split; [exact F1 | rewrite V1, Rabs_R1; lra]].
  - intros p Hp. cbn [app In pol_1 pol_2] in Hp. destruct Hp as [<-|[<-|[<-|[]]]]; apply US; try assumption; lra.
  - constructor; [|constructor]. constructor; [|constructor; [|constructor]]; exists 0; cbn [fst snd]; (split; [apply axis_gap; lra|]); change (val fzero) with 0.
    + replace ((0 - 0) * (0 - 0) + 0 * 0) with 0 by ring. rewrite sqrt_0. reflexivity.
    + rewrite V1. replace ((0 - 1) * (0 - 1) + 0 * 0) with (1 * 1) by ring. rewrite sqrt_square; lra.
  - split; [|split; [|split; [|split; [|split; [|split; [|split]]]]]]; try lra.
    + intros row d [<-|[]] [<-|[<-|[]]]; lra.
    + intros p Hp. cbn [app In pol_1 pol_2] in Hp. destruct Hp as [<-|[<-|[<-|[]]]]; lra.
    + intros row [<-|[]]. rewrite VR, SQ. lra.
    + rewrite VP, SQ. lra.
  - cbn [length pol_2 INR]. lra.
  - unfold exact_cost, pair_cost. rewrite VP. cbn [nth map pol_1 pol_2 D]. rewrite PT1, VR. replace (- (0 * 0) / (2 * / 4)) with 0 by field. replace (- ((1 - 1) * (1 - 1)) / (2 * / 4)) with 0 by field. rewrite exp_0. ring.
  - unfold exact_cost, pair_cost. rewrite VP. cbn [nth map pol_1 pol_2 D]. rewrite PT1, PT2, VR. replace (- (1 * 1) / (2 * / 4)) with (-2) by field. replace (- ((1 - 2) * (1 - 2)) / (2 * / 4)) with (-2) by field. ring.
Qed.
(** The computed assignment takes the first candidate, in any order of the additions. *)
Example C237_case : exists out, f_assignment_cost ref_hypot ref_atan2 ref_expm1 [fzero] [fzero; fone] [(fone, fzero)] [(fone, fzero); (ftwo, fzero)] out /\
  exists C, out = Ok C /\ forall a, best_matching 1 2 (computed_cost C) a -> a = [(0, 0)]%nat.
Proof.
  destruct C236_case as (H1 & H2 & H3 & H4 & H5 & H6 & H7 & H8 & E0 & E1).
  destruct (C218_result_exists ref_hypot ref_atan2 ref_expm1 [fzero] [fzero; fone] [(fone, fzero)] [(fone, fzero); (ftwo, fzero)] eq_refl ltac:(discriminate)) as (out & HO). exists out. split; [exact HO|].
  destruct (C236_costs ref_hypot ref_atan2 ref_expm1 1 [fzero] [fzero; fone] [(fone, fzero)] [(fone, fzero); (ftwo, fzero)] [[0; 1]] 1 2 4 out ltac:(lra) H1 H2 H3 eq_refl eq_refl H4 H5 H6 ltac:(lra) H7 H8 HO) as (C & -> & _).
  exists C. split; [reflexivity|]. intros a BA.
  assert (M0 : matching 1 2 [(0, 0)]%nat). { split; [repeat constructor; cbn; tauto|]. split; [repeat constructor; cbn; tauto|]. split; [intros i j [E|[]]; injection E as <- <-; lia | reflexivity]. }
  assert (ONE : forall m, matching 1 2 m -> m = [(0, 0)]%nat \/ m = [(0, 1)]%nat).
  { intros m (_ & _ & R & L). destruct m as [|(i, j) [|]]; try discriminate L. destruct (R i j (or_introl eq_refl)) as (Hi & Hj). assert (i = 0%nat) as -> by lia. assert (j = 0 \/ j = 1)%nat as [-> | ->] by lia; auto. }
  pose proof (C237_near_best ref_hypot ref_atan2 ref_expm1 1 [fzero] [fzero; fone] [(fone, fzero)] [(fone, fzero); (ftwo, fzero)] [[0; 1]] 1 2 4 C a _ ltac:(lra) H1 H2 H3 eq_refl eq_refl H4 H5 H6 ltac:(lra) H7 H8 HO BA M0) as H.
  destruct (ONE a (proj1 BA)) as [E|E]; [exact E|]. exfalso. rewrite E in H. unfold total in H. cbn [map rsum fst snd] in H. rewrite E0, E1 in H. unfold cost_error in H. cbn [length Nat.min INR] in H.
  pose proof u_b as [U0 U1]. assert (EXP : exp (-2) <= / 3). { replace (-2) with (- (2)) by ring. rewrite exp_Ropp. apply Rinv_le_contravar; [lra|]. pose proof (exp_ineq1_le 2). lra. } lra.
Qed.

Print Assumptions C235_variance.
Print Assumptions C236_costs.
Print Assumptions C237_near_best.
Print Assumptions C237_same.
