(** Properties of the compiled kernels in IEEE double arithmetic. *)
From Coq Require Import ZArith Reals List Bool Lia Lra.
From Flocq Require Import Core BinarySingleNaN.
From Verif Require Import SpecIEEE Floats FloatBase FloatOps.
Import ListNotations.
Open Scope R_scope.

Lemma signed_root_abs : forall a b, 0 <= a -> 0 <= b -> Rabs (signed_root (a * a - b * b)) = sqrt (Rabs (a - b)) * sqrt (a + b).
Proof. intros a b Ha Hb. rewrite <- sqrt_mult by (try apply Rabs_pos; lra). unfold signed_root.
  destruct (Rlt_dec (a * a - b * b) 0) as [L|L].
  - rewrite Rabs_Ropp, Rabs_pos_eq by apply sqrt_pos. f_equal. rewrite Rabs_left by nra. ring.
  - rewrite Rabs_pos_eq by apply sqrt_pos. f_equal. destruct (Rle_lt_dec b a) as [G|G]; [rewrite Rabs_pos_eq by lra; ring | exfalso; nra]. Qed.

Lemma sign_fabs : forall x, fin x -> negative (fabs x) = false.
Proof. intros x F. destruct x; cbn in *; try reflexivity; discriminate. Qed.

Lemma sqrt_scale : forall e, Rabs e <= u -> exists f, Rabs f <= 51 / 100 * u /\ sqrt (1 + e) = 1 + f.
Proof. intros e H. pose proof u_small. pose proof u_pos. apply Rabs_le_inv in H. exists (sqrt (1 + e) - 1). split; [|ring].
  assert (P : 0 <= sqrt (1 + e)) by apply sqrt_pos. assert (Q : sqrt (1 + e) * sqrt (1 + e) = 1 + e) by (apply sqrt_sqrt; lra).
  set (q := sqrt (1 + e)) in *. clearbody q. apply Rabs_le. split.
  - apply Rnot_lt_le. intros L. assert (q < 1 - 51 / 100 * u) by lra. nra.
  - apply Rnot_lt_le. intros L. assert (1 + 51 / 100 * u < q) by lra. nra. Qed.

Lemma root_diff_main : forall x1 x2, fin x1 -> fin x2 -> Rabs (val x1) + Rabs (val x2) <= huge ->
  exists k s, Rabs (k - 1) <= 31 / 10 * u /\ 0 <= s /\ s = sqrt (Rabs (Rabs (val x1) - Rabs (val x2))) * sqrt (Rabs (val x1) + Rabs (val x2)) * k
  /\ fin (root_diff x1 x2)
  /\ val (root_diff x1 x2) = (if Rlt_dec (Rabs (val x1) - Rabs (val x2)) 0 then - nearest s else nearest s)
  /\ (Rabs (val x1) <> Rabs (val x2) -> bpow radix2 (-1074) <= s).
Proof.
  intros x1 x2 F1 F2 H. set (a := Rabs (val x1)) in *. set (b := Rabs (val x2)) in *.
  assert (Ha : 0 <= a) by apply Rabs_pos. assert (Hb : 0 <= b) by apply Rabs_pos.
  pose proof u_pos as U0. pose proof u_small as U1. pose proof huge_pos as G.
  unfold root_diff. set (d := fsub (fabs x1) (fabs x2)). set (sm := fadd (fabs x1) (fabs x2)).
  assert (E1 : val (fabs x1) = a) by apply fabs_ok. assert (E2 : val (fabs x2) = b) by apply fabs_ok.
  assert (G1 : fin (fabs x1)) by (apply fabs_fin; assumption). assert (G2 : fin (fabs x2)) by (apply fabs_fin; assumption).
  destruct (fsub_ok (fabs x1) (fabs x2) G1 G2) as (Vd & Fd & Sd).
  { apply no_overflow. rewrite E1, E2. apply Rabs_le. lra. }
  destruct (fadd_ok (fabs x1) (fabs x2) G1 G2) as (Vs & Fs).
  { apply no_overflow. rewrite E1, E2. apply Rabs_le. lra. }
  destruct (sub_rel (fabs x1) (fabs x2)) as (e1 & B1 & R1). destruct (add_rel (fabs x1) (fabs x2)) as (e2 & B2 & R2).
  rewrite E1, E2 in Vd, Vs, Sd, R1, R2. rewrite R1 in Vd. rewrite R2 in Vs. fold d in Vd, Fd, Sd. fold sm in Vs, Fs.
  assert (Fad : fin (fabs d)) by (apply fabs_fin; exact Fd). assert (Vad : val (fabs d) = Rabs (a - b) * (1 + e1)).
  { rewrite fabs_ok, Vd, Rabs_mult. f_equal. apply Rabs_pos_eq. apply Rabs_le_inv in B1. lra. }
  assert (Pad : 0 <= val (fabs d)) by (rewrite fabs_ok; apply Rabs_pos).
  assert (Ps : 0 <= val sm). { rewrite Vs. apply Rabs_le_inv in B2. apply Rmult_le_pos; lra. }
  destruct (fsqrt_ok (fabs d) Fad Pad) as (Vq & Fq). destruct (fsqrt_ok sm Fs Ps) as (Vr & Fr).
  pose proof Vq as Wq. pose proof Vr as Wr.
  destruct (sqrt_rel (fabs d)) as (e3 & B3 & R3). destruct (sqrt_rel sm) as (e4 & B4 & R4).
  rewrite R3 in Vq. rewrite R4 in Vr. rewrite Vad in Vq. rewrite Vs in Vr.
  rewrite sqrt_mult in Vq by (try apply Rabs_pos; apply Rabs_le_inv in B1; lra).
  rewrite sqrt_mult in Vr by (apply Rabs_le_inv in B2; lra).
  destruct (sqrt_scale e1 B1) as (f1 & C1 & Q1). destruct (sqrt_scale e2 B2) as (f2 & C2 & Q2). rewrite Q1 in Vq. rewrite Q2 in Vr.
  assert (Pq : 0 <= val (fsqrt (fabs d))).
  { rewrite Vq. apply Rabs_le_inv in C1. apply Rabs_le_inv in B3. repeat apply Rmult_le_pos; try apply sqrt_pos; lra. }
  assert (Pr : 0 <= val (fsqrt sm)).
  { rewrite Vr. apply Rabs_le_inv in C2. apply Rabs_le_inv in B4. repeat apply Rmult_le_pos; try apply sqrt_pos; lra. }
  destruct (copysign_val (fsqrt (fabs d)) d Pq Fq) as (Vc & Fc).
  set (k := (1 + f1) * (1 + e3) * ((1 + f2) * (1 + e4))). set (s := val (fsqrt (fabs d)) * val (fsqrt sm)).
  assert (Es : s = sqrt (Rabs (a - b)) * sqrt (a + b) * k) by (unfold s, k; rewrite Vq, Vr; ring).
  (* the constant *)
  assert (K : Rabs (k - 1) <= 31 / 10 * u).
  { unfold k. apply Rabs_le_inv in C1, C2, B3, B4. apply Rabs_le.
    assert (X : forall p q, - (51 / 100 * u) <= p <= 51 / 100 * u -> - u <= q <= u -> - (152 / 100 * u) <= (1 + p) * (1 + q) - 1 <= 152 / 100 * u) by (intros; nra).
    pose proof (X f1 e3 C1 B3) as X1. pose proof (X f2 e4 C2 B4) as X2.
    set (m := (1 + f1) * (1 + e3)) in *. set (n := (1 + f2) * (1 + e4)) in *. clearbody m n. nra. }
  assert (Ps0 : 0 <= s) by (apply Rmult_le_pos; assumption).
  (* no overflow *)
  assert (Bs : s <= 3 / 2 * huge).
  { rewrite Es. assert (S : sqrt (Rabs (a - b)) * sqrt (a + b) <= a + b).
    { rewrite <- (sqrt_sqrt (a + b)) at 2 by lra. apply Rmult_le_compat_r; [apply sqrt_pos|]. apply sqrt_le_1; [apply Rabs_pos | lra |]. apply Rabs_le. lra. }
    assert (0 <= sqrt (Rabs (a - b)) * sqrt (a + b)) by (apply Rmult_le_pos; apply sqrt_pos). apply Rabs_le_inv in K. nra. }
  assert (O : Rabs (nearest (val (copysign (fsqrt (fabs d)) d) * val (fsqrt sm))) < bpow radix2 1024).
  { apply no_overflow32. rewrite Rabs_mult. rewrite Vc. replace (Rabs (if negative d then - val (fsqrt (fabs d)) else val (fsqrt (fabs d)))) with (val (fsqrt (fabs d))).
    - rewrite (Rabs_pos_eq (val (fsqrt sm))) by exact Pr. exact Bs.
    - destruct (negative d); [rewrite Rabs_Ropp|]; rewrite Rabs_pos_eq by exact Pq; reflexivity. }
  destruct (fmul_ok _ _ Fc Fr O) as (Vm & Fm & _).
  exists k, s. split; [exact K|]. split; [exact Ps0|]. split; [exact Es|]. split; [exact Fm|]. split.
  - rewrite Vm, Vc. replace (negative d) with (if Rlt_dec (a - b) 0 then true else false).
    + destruct (Rlt_dec (a - b) 0); [|reflexivity]. rewrite Ropp_mult_distr_l_reverse. apply nearest_opp.
    + rewrite Sd. destruct (Rlt_dec (a - b) 0) as [L|L]; [rewrite Rcompare_Lt by exact L; reflexivity|].
      destruct (Req_dec (a - b) 0) as [Z|Z]; [rewrite Rcompare_Eq by exact Z | rewrite Rcompare_Gt by lra; reflexivity].
      rewrite (sign_fabs x1 F1). reflexivity.
  - intros N. assert (Zd : val (fabs d) <> 0).
    { rewrite Vad. apply Rabs_le_inv in B1. apply Rmult_integral_contrapositive_currified; [apply Rabs_no_R0; lra | lra]. }
    assert (Zs : val sm <> 0). { rewrite Vs. apply Rabs_le_inv in B2. apply Rmult_integral_contrapositive_currified; lra. }
    pose proof (val_min _ Zd) as Md. pose proof (val_min _ Zs) as Ms. rewrite (Rabs_pos_eq _ Pad) in Md. rewrite (Rabs_pos_eq _ Ps) in Ms.
    assert (R : forall y, bpow radix2 (-1074) <= y -> bpow radix2 (-537) <= nearest (sqrt y)).
    { intros y Hy. apply nearest_ge_fmt; [apply fmt_bpow; lia|].
      replace (bpow radix2 (-537)) with (sqrt (bpow radix2 (-1074))).
      - apply sqrt_le_1; [apply bpow_ge_0 | pose proof (bpow_ge_0 radix2 (-1074)); lra | exact Hy].
      - change (-1074)%Z with (-537 + -537)%Z. rewrite bpow_plus. apply sqrt_square. apply bpow_ge_0. }
    unfold s. rewrite Wq, Wr.
    replace (bpow radix2 (-1074)) with (bpow radix2 (-537) * bpow radix2 (-537)) by (rewrite <- bpow_plus; reflexivity).
    apply Rmult_le_compat; try apply bpow_ge_0; apply R; assumption.
Qed.

(** * C138 *)

Theorem C138_root_diff : forall x1 x2 : f64, fin x1 -> fin x2 -> Rabs (val x1) + Rabs (val x2) <= huge ->
  let exact := signed_root (val x1 * val x1 - val x2 * val x2) in
  let r := root_diff x1 x2 in
  fin r
  /\ (val r = 0 <-> Rabs (val x1) = Rabs (val x2))
  /\ (0 < val r <-> Rabs (val x2) < Rabs (val x1))
  /\ (min_normal <= Rabs exact -> within 5 (val r) exact)
  /\ Rabs (val r - exact) <= 5 * u * Rabs exact + u * min_normal.
Proof.
  intros x1 x2 F1 F2 H exact r. destruct (root_diff_main x1 x2 F1 F2 H) as (k & s & K & Ps & Es & Fr & Vr & Mn).
  fold r in Fr, Vr. set (a := Rabs (val x1)) in *. set (b := Rabs (val x2)) in *.
  assert (Ha : 0 <= a) by apply Rabs_pos. assert (Hb : 0 <= b) by apply Rabs_pos.
  assert (Xe : exact = signed_root (a * a - b * b)).
  { unfold exact, a, b. f_equal. rewrite <- !Rabs_mult, !Rabs_pos_eq by apply Rle_0_sqr. reflexivity. }
  assert (Xa : Rabs exact = sqrt (Rabs (a - b)) * sqrt (a + b)) by (rewrite Xe; apply signed_root_abs; assumption).
  rewrite <- Xa in Es.
  assert (Sg : exact = if Rlt_dec (a - b) 0 then - Rabs exact else Rabs exact).
  { rewrite Xe. unfold signed_root. destruct (Rlt_dec (a * a - b * b) 0) as [L|L]; destruct (Rlt_dec (a - b) 0) as [M|M]; try (exfalso; nra).
    - rewrite Rabs_Ropp, Rabs_pos_eq by apply sqrt_pos. reflexivity.
    - rewrite Rabs_pos_eq by apply sqrt_pos. reflexivity. }
  assert (Pn : a <> b -> bpow radix2 (-1074) <= nearest s).
  { intros N. apply nearest_ge_fmt; [apply fmt_bpow; lia | apply Mn, N]. }
  assert (Zn : a = b -> nearest s = 0).
  { intros E. rewrite Es, Xa, E, Rminus_diag_eq, Rabs_R0, sqrt_0 by reflexivity. rewrite !Rmult_0_l. apply nearest_0. }
  pose proof (bpow_gt_0 radix2 (-1074)) as T.
  assert (D : Rabs (val r - exact) = Rabs (nearest s - Rabs exact)).
  { rewrite Vr. rewrite Sg at 1. destruct (Rlt_dec (a - b) 0); [|reflexivity]. rewrite <- Rabs_Ropp. f_equal. ring. }
  set (m := Rabs exact) in *. assert (Pm : 0 <= m) by apply Rabs_pos.
  pose proof u_pos as U0. pose proof u_small as U1.
  assert (Q : Rabs (s - m) <= 31 / 10 * u * m).
  { rewrite Es. replace (m * k - m) with (m * (k - 1)) by ring. rewrite Rabs_mult, (Rabs_pos_eq m Pm). nra. }
  assert (Sm : s <= 11 / 10 * m) by (apply Rabs_le_inv in Q; nra).
  assert (TR : Rabs (nearest s - m) <= Rabs (nearest s - s) + Rabs (s - m)).
  { replace (nearest s - m) with (nearest s - s + (s - m)) by ring. apply Rabs_triang. }
  split; [exact Fr|]. split; [|split; [|split]].
  - rewrite Vr. split.
    + intros E. destruct (Req_dec a b) as [|N]; [assumption|]. specialize (Pn N). destruct (Rlt_dec (a - b) 0); lra.
    + intros E. rewrite (Zn E). destruct (Rlt_dec (a - b) 0); lra.
  - rewrite Vr. destruct (Rlt_dec (a - b) 0) as [L|L].
    + split; intros X; [|lra]. specialize (Pn ltac:(lra)). lra.
    + split; intros X.
      * destruct (Req_dec a b) as [E|N]; [rewrite (Zn E) in X|]; lra.
      * specialize (Pn ltac:(lra)). lra.
  - intros M. unfold within. fold m. rewrite D. destruct (nearest_err s) as [N|N].
    + rewrite (Rabs_pos_eq s Ps) in N. nra.
    + nra.
  - rewrite D. pose proof (nearest_err_any s) as N. rewrite (Rabs_pos_eq s Ps) in N. nra.
Qed.
Print Assumptions C138_root_diff.

(** 5^2 - 3^2 = 4^2: the hypotheses hold and the computed root is 4 up to one rounding error. *)
Example C138_case : fin (lit 5 0) /\ fin (lit 3 0) /\ Rabs (val (lit 5 0)) + Rabs (val (lit 3 0)) <= huge
  /\ root_diff (lit 5 0) (lit 3 0) = lit (2 ^ 52 + 1) (-50) /\ root_diff (lit 3 0) (lit 5 0) = fneg (lit (2 ^ 52 + 1) (-50))
  /\ root_diff (lit 3 0) (lit (-3) 0) = fzero.
Proof.
  destruct (lit_int 5 ltac:(lia)) as (V5 & _). destruct (lit_int 3 ltac:(lia)) as (V3 & _).
  split; [reflexivity|]. split; [reflexivity|]. split.
  - rewrite V5, V3, !Rabs_pos_eq by lra. unfold huge. assert (2 ^ 3 <= 2 ^ 1023) by (apply Rle_pow; [lra | lia]). lra.
  - split; [|split]; apply B2SF_inj; vm_compute; reflexivity.
Qed.

(** * C139 *)

Lemma copysign_neg : forall x s, is_nan s = false -> copysign x (fneg s) = fneg (copysign x s).
Proof. intros x s N. assert (S : Bsign (fneg s) = negb (Bsign s)) by (destruct s; [reflexivity | reflexivity | cbn in N; discriminate | reflexivity]).
  unfold copysign. destruct x as [b|b| |b m e Hb]; [ | |reflexivity|]; rewrite S; cbn [Bsign];
    destruct b, (Bsign s); cbn; reflexivity. Qed.
Lemma copysign_sign : forall x s, is_nan x = false -> negative (copysign x s) = negative s /\ is_nan (copysign x s) = false.
Proof. intros x s N. unfold copysign, negative. destruct x as [b|b| |b m e Hb]; [ | |discriminate|]; cbn [Bsign];
    destruct b, (Bsign s); cbn; split; reflexivity. Qed.
Lemma fabs_neg : forall x, fabs (fneg x) = fabs x.
Proof. intros x. destruct x; reflexivity. Qed.

Lemma flt_ok : forall x y, fin x -> fin y -> flt x y = true <-> val x < val y.
Proof. intros x y Hx Hy. unfold flt. rewrite Bltb_correct by assumption. fold (val x) (val y). destruct (Rlt_bool_spec (val x) (val y)); split; intros; try lra; congruence. Qed.

(** Exactly odd in the longitudinal momentum, for every energy (NaN and infinite included) and every log. *)
Theorem C139_odd : forall log zero_tol e z, is_nan z = false ->
  f_rapidity log zero_tol e (fneg z) = fneg (f_rapidity log zero_tol e z).
Proof. intros log tol e z N. unfold f_rapidity. rewrite fabs_neg. apply copysign_neg, N. Qed.

Theorem C139_finite : forall (log : f64 -> f64) zero_tol e z,
  (forall x, fin x -> 1 <= val x -> fin (log x) /\ 0 <= val (log x)) ->
  fin zero_tol -> fin e -> fin z -> / 2 ^ 100 <= val zero_tol -> Rabs (val z) <= val e -> val e <= 2 ^ 900 ->
  let r := f_rapidity log zero_tol e z in
  is_nan r = false
  /\ negative r = negative z
  /\ (infinite r <-> nearest (val e - Rabs (val z)) <= val zero_tol)
  /\ (fin r <-> val zero_tol < nearest (val e - Rabs (val z))).
Proof.
  intros log tol e z HL Ft Fe Fz Ht Hz He r.
  assert (T0 : 0 < val tol). { assert (0 < / 2 ^ 100) by (apply Rinv_0_lt_compat, pow_lt; lra). lra. }
  assert (H9 : 2 ^ 900 + 2 ^ 900 <= huge).
  { unfold huge. assert (2 * 2 ^ 900 <= 2 ^ 1023); [|lra]. change (2 * 2 ^ 900) with (2 ^ 901). apply Rle_pow; [lra | lia]. }
  pose proof (Rabs_pos (val z)) as Az.
  assert (Ez : val (fabs z) = Rabs (val z)) by apply fabs_ok. assert (Fz' : fin (fabs z)) by (apply fabs_fin; exact Fz).
  destruct (fsub_ok e (fabs z) Fe Fz') as (Vd & Fd & _). { apply no_overflow. rewrite Ez. apply Rabs_le. lra. }
  destruct (fadd_ok e (fabs z) Fe Fz') as (Vs & Fs). { apply no_overflow. rewrite Ez. apply Rabs_le. lra. }
  rewrite Ez in Vd, Vs.
  set (d := fsub e (fabs z)) in *. set (s := fadd e (fabs z)) in *.
  assert (Pd : 0 <= val d). { rewrite Vd, <- nearest_0. apply nearest_le. lra. }
  assert (Ds : val d <= val s). { rewrite Vd, Vs. apply nearest_le. lra. }
  assert (Fad : fin (fabs d)) by (apply fabs_fin; exact Fd).
  assert (Vad : val (fabs d) = val d) by (rewrite fabs_ok; apply Rabs_pos_eq, Pd).
  pose proof (flt_ok tol (fabs d) Ft Fad) as L. rewrite Vad in L. rewrite <- Vd.
  unfold r, f_rapidity. fold d. fold s. destruct (flt tol (fabs d)) eqn:Q.
  - assert (LT : val tol < val d) by (apply L; reflexivity).
    assert (Zd : val d <> 0) by lra.
    assert (R1 : 1 <= val s / val d). { apply Rmult_le_reg_r with (val d); [lra|]. unfold Rdiv. rewrite Rmult_assoc, Rinv_l by exact Zd. lra. }
    assert (R2 : val s / val d <= huge).
    { assert (S9 : val s <= 2 ^ 901). { rewrite Vs. apply nearest_le_fmt; [rewrite <- (bpow_pos_pow 901); apply fmt_bpow; lia|]. change (2 ^ 901) with (2 * 2 ^ 900). lra. }
      apply Rle_trans with (2 ^ 901 * 2 ^ 100).
      - apply Rmult_le_compat; [lra | left; apply Rinv_0_lt_compat; lra | exact S9|]. rewrite <- (Rinv_inv (2 ^ 100)). apply Rinv_le_contravar; [|lra]. apply Rinv_0_lt_compat, pow_lt; lra.
      - rewrite <- pow_add. unfold huge. apply Rle_pow; [lra | lia]. }
    destruct (fdiv_ok s d Fs Fd Zd) as (Vq & Fq & _). { apply no_overflow. rewrite Rabs_pos_eq by lra. exact R2. }
    assert (R3 : 1 <= val (fdiv s d)). { rewrite Vq. apply nearest_ge_fmt; [change 1 with (bpow radix2 0); apply fmt_bpow; lia | exact R1]. }
    destruct (HL _ Fq R3) as (Fl & Pl). set (l := log (fdiv s d)) in *.
    assert (Vh : val fhalf = / 2). { destruct (lit_ok 1 (-1) ltac:(lia) ltac:(lia)) as (A & _). unfold fhalf. rewrite A. change (bpow radix2 (-1)) with (/ 2). lra. }
    destruct (fmul_ok fhalf l eq_refl Fl) as (Vm & Fm & _).
    { rewrite Vh. eapply Rle_lt_trans; [|apply (val_lt l)]. rewrite <- nearest_abs, <- (nearest_id (Rabs (val l))).
      - apply nearest_le. rewrite Rabs_mult, (Rabs_pos_eq (/ 2)) by lra. pose proof (Rabs_pos (val l)). lra.
      - apply generic_format_abs, val_fmt. }
    assert (N : is_nan (fmul fhalf l) = false) by (unfold fin in Fm; destruct (fmul fhalf l); [reflexivity | reflexivity | discriminate | reflexivity]).
    destruct (copysign_sign _ z N) as (S & N'). split; [exact N'|]. split; [exact S|].
    assert (Fc : fin (copysign (fmul fhalf l) z)).
    { unfold copysign. destruct (fmul fhalf l) as [b|b| |b m ee Hb]; try (cbn in Fm; discriminate); destruct (Bool.eqb _ _); reflexivity. }
    split; split; intros X; try lra; try exact Fc.
    + destruct X as (b & X). rewrite X in Fc. discriminate.
  - assert (NL : val d <= val tol). { apply Rnot_lt_le. intros X. apply L in X. discriminate. }
    destruct (copysign_sign finf z eq_refl) as (S & N). split; [exact N|]. split; [exact S|].
    split; split; intros X; try lra.
    + unfold copysign, finf. cbn [Bsign]. destruct (Bool.eqb false (Bsign z)); eexists; reflexivity.
    + unfold copysign, finf in X. cbn [Bsign] in X. destruct (Bool.eqb false (Bsign z)); cbn in X; discriminate.
Qed.

(** A particle whose energy is NaN gets an infinite rapidity, not NaN. *)
Theorem C139_nan_energy : forall log zero_tol z, infinite (f_rapidity log zero_tol B754_nan z).
Proof. intros log tol z. unfold f_rapidity. cbn. unfold flt. replace (Bltb tol B754_nan) with false by (destruct tol as [s|[]| |s m e H]; reflexivity).
  unfold copysign, finf. cbn [Bsign]. destruct (Bool.eqb false (Bsign z)); eexists; reflexivity. Qed.
Print Assumptions C139_odd.
Print Assumptions C139_finite.
Print Assumptions C139_nan_energy.

(** A stand-in for log with the contract of C139_finite (x - 1), used on a physical momentum. *)
Example C139_case :
  (forall x, fin x -> 1 <= val x -> fin (fsub x fone) /\ 0 <= val (fsub x fone))
  /\ Rabs (val (lit 3 0)) <= val (lit 5 0)
  /\ f_rapidity (fun x => fsub x fone) (lit 1 (-33)) (lit 5 0) (lit (-3) 0) = lit (-3) (-1)
  /\ f_rapidity (fun x => fsub x fone) (lit 1 (-33)) (lit 3 0) (lit (-3) 0) = B754_infinity true.
Proof.
  destruct (lit_int 1 ltac:(lia)) as (V1 & F1). fold fone in V1, F1. destruct (lit_int 5 ltac:(lia)) as (V5 & _). destruct (lit_int 3 ltac:(lia)) as (V3 & _).
  split; [|split; [rewrite V3, V5, Rabs_pos_eq; lra | split; apply B2SF_inj; vm_compute; reflexivity]].
  intros x Fx Hx. destruct (fsub_ok x fone Fx F1) as (V & F & _).
  - rewrite V1. eapply Rle_lt_trans; [|apply (val_lt x)]. rewrite <- nearest_abs, <- (nearest_id (Rabs (val x))) by apply generic_format_abs, val_fmt.
    apply nearest_le. rewrite !Rabs_pos_eq; lra.
  - split; [exact F|]. rewrite V, V1, <- nearest_0. apply nearest_le. lra.
Qed.

(** * C140, C141 *)

(** The matrix of distances is exactly symmetric: swapping the particles (or the two arrays) gives the same double. *)
Theorem C140_symmetric : forall (hypot atan2 : f64 -> f64 -> f64),
  (forall a b, hypot (fneg a) b = hypot a b) -> (forall a b, hypot a (fneg b) = hypot a b) ->
  (forall y x, atan2 (fneg y) x = fneg (atan2 y x)) ->
  forall rap_1 rap_2 pol_1 pol_2,
  f_delta hypot atan2 rap_2 rap_1 pol_2 pol_1 = f_delta hypot atan2 rap_1 rap_2 pol_1 pol_2.
Proof.
  intros hypot atan2 H1 H2 A r1 r2 [x1 y1] [x2 y2]. unfold f_delta, cmul, conj. cbn [fst snd].
  assert (Re : fsub (fmul x2 x1) (fmul y2 (fneg y1)) = fsub (fmul x1 x2) (fmul y1 (fneg y2))).
  { rewrite (fmul_comm x2 x1). f_equal. rewrite !fmul_neg_r, (fmul_comm y2 y1). reflexivity. }
  assert (Im : exists a b, fadd (fmul x1 (fneg y2)) (fmul y1 x2) = fsub a b /\ fadd (fmul x2 (fneg y1)) (fmul y2 x1) = fsub b a).
  { exists (fmul y1 x2), (fmul y2 x1). rewrite !fmul_neg_r, (fmul_comm x1 y2), (fmul_comm x2 y1). rewrite !fsub_add. split; apply fadd_comm. }
  destruct Im as (a & b & -> & ->). rewrite Re.
  set (re := fsub (fmul x1 x2) (fmul y1 (fneg y2))).
  assert (P : forall d, hypot d (atan2 (fsub b a) re) = hypot d (atan2 (fsub a b) re)).
  { intros d. destruct (fsub_swap a b) as [-> | ->]; [rewrite A, H2|]; reflexivity. }
  rewrite P. destruct (fsub_swap r1 r2) as [-> | ->]; [|reflexivity]. rewrite fneg_nan. destruct (is_nan (fsub r1 r2)); [reflexivity | apply H1].
Qed.

Lemma fin_not_nan : forall x, fin x -> is_nan x = false.
Proof. intros x F. destruct x; [reflexivity | reflexivity | discriminate | reflexivity]. Qed.
Lemma sub_self : forall x, fin x -> fsub x x = fzero.
Proof. intros x F. assert (Z : Rabs (nearest (val x - val x)) < bpow radix2 1024).
  { rewrite Rminus_diag_eq, nearest_0, Rabs_R0 by reflexivity. apply bpow_gt_0. }
  destruct (fsub_ok x x F F Z) as (V & G & S). rewrite Rminus_diag_eq, Rcompare_Eq in S by (try apply Rminus_diag_eq; reflexivity).
  rewrite Rminus_diag_eq, nearest_0 in V by reflexivity. apply B2R_Bsign_inj; [exact G | reflexivity | exact V |].
  change (negative (fsub x x) = false). rewrite S. destruct (negative x); reflexivity. Qed.

(** The distance of a particle from itself (and from any particle with the same rapidity and direction bits) is 0.0, whatever its
    rapidity: finite, infinite or NaN. *)
Theorem C141_self_distance : forall (hypot atan2 : f64 -> f64 -> f64),
  hypot fzero fzero = fzero ->
  (forall x, is_nan x = false -> negative x = false -> atan2 fzero x = fzero) ->
  forall rap x y, fin x -> fin y -> Rabs (val x) <= 2 ^ 500 -> Rabs (val y) <= 2 ^ 500 ->
  f_delta hypot atan2 rap rap (x, y) (x, y) = fzero.
Proof.
  intros hypot atan2 H A r x y Fx Fy Hx Hy. unfold f_delta, cmul, conj. cbn [fst snd].
  assert (Bd : forall a b, Rabs a <= 2 ^ 500 -> Rabs b <= 2 ^ 500 -> Rabs (a * b) <= 2 ^ 1000).
  { intros a b Ha Hb. rewrite Rabs_mult. replace (2 ^ 1000) with (2 ^ 500 * 2 ^ 500) by (rewrite <- pow_add; reflexivity).
    apply Rmult_le_compat; try apply Rabs_pos; assumption. }
  assert (B1000 : 2 ^ 1000 + 2 ^ 1000 <= huge).
  { unfold huge. assert (2 ^ 1001 <= 2 ^ 1023) by (apply Rle_pow; [lra | lia]). change (2 ^ 1001) with (2 * 2 ^ 1000) in H0. lra. }
  assert (P1000 : 0 < 2 ^ 1000) by (apply pow_lt; lra).
  assert (OV : forall a b, Rabs a <= 2 ^ 500 -> Rabs b <= 2 ^ 500 -> Rabs (nearest (a * b)) < bpow radix2 1024).
  { intros a b Ha Hb. apply no_overflow. pose proof (Bd a b Ha Hb). lra. }
  assert (NB : forall a b, Rabs a <= 2 ^ 500 -> Rabs b <= 2 ^ 500 -> Rabs (nearest (a * b)) <= 2 ^ 1000).
  { intros a b Ha Hb. apply nearest_abs_le; [rewrite <- (bpow_pos_pow 1000); apply fmt_bpow; lia | apply Bd; assumption]. }
  destruct (fmul_ok x x Fx Fx (OV _ _ Hx Hx)) as (Vxx & Fxx & Sxx). destruct (fmul_ok y y Fy Fy (OV _ _ Hy Hy)) as (Vyy & Fyy & Syy).
  destruct (fmul_ok y x Fy Fx (OV _ _ Hy Hx)) as (Vyx & Fyx & _).
  rewrite !fmul_neg_r. rewrite (fmul_comm x y). rewrite (fadd_comm (fneg _)), <- fsub_add, (sub_self (fmul y x) Fyx).
  assert (D : (if is_nan (fsub r r) then fzero else fsub r r) = fzero).
  { destruct r as [s|s| |s m e Hb]; try (destruct s; reflexivity); try reflexivity. rewrite sub_self by reflexivity. reflexivity. }
  rewrite D, A; [exact H | |].
  - destruct (fsub_ok (fmul x x) (fneg (fmul y y)) Fxx) as (_ & G & _).
    + apply fneg_fin. exact Fyy.
    + rewrite fneg_ok, Vxx, Vyy. apply no_overflow. eapply Rle_trans; [apply Rabs_triang|]. rewrite Rabs_Ropp, Rabs_Ropp.
      pose proof (NB _ _ Hx Hx). pose proof (NB _ _ Hy Hy). lra.
    + apply fin_not_nan, G.
  - destruct (fsub_ok (fmul x x) (fneg (fmul y y)) Fxx) as (_ & G & S).
    + apply fneg_fin. exact Fyy.
    + rewrite fneg_ok, Vxx, Vyy. apply no_overflow. eapply Rle_trans; [apply Rabs_triang|]. rewrite Rabs_Ropp, Rabs_Ropp.
      pose proof (NB _ _ Hx Hx). pose proof (NB _ _ Hy Hy). lra.
    + rewrite S. rewrite fneg_ok. rewrite xorb_nilpotent in Sxx.
      assert (0 <= val (fmul x x)) by (rewrite Vxx, <- nearest_0; apply nearest_le, Rle_0_sqr).
      assert (0 <= val (fmul y y)) by (rewrite Vyy, <- nearest_0; apply nearest_le, Rle_0_sqr).
      destruct (Rcompare_spec (val (fmul x x) - - val (fmul y y)) 0) as [L|E|G']; [lra | | reflexivity].
      rewrite Sxx. reflexivity.
Qed.
Print Assumptions C140_symmetric.
Print Assumptions C141_self_distance.

(** Stand-ins with the contracts of C140 and C141 (|a| + |b| for hypot, y for atan2), and the distances of two particles. *)
Example C140_case :
  let hypot := fun a b => fadd (fabs a) (fabs b) in let atan2 := fun y _ : f64 => y in
  (forall a b, hypot (fneg a) b = hypot a b) /\ (forall a b, hypot a (fneg b) = hypot a b) /\ (forall y x, atan2 (fneg y) x = fneg (atan2 y x))
  /\ hypot fzero fzero = fzero /\ (forall x, is_nan x = false -> negative x = false -> atan2 fzero x = fzero)
  /\ f_delta hypot atan2 (lit 5 0) (lit 3 0) (lit 1 0, lit 2 0) (lit 3 0, lit 1 0) = lit 7 0
  /\ f_delta hypot atan2 (lit 3 0) (lit 5 0) (lit 3 0, lit 1 0) (lit 1 0, lit 2 0) = lit 7 0
  /\ f_delta hypot atan2 finf finf (lit 3 0, lit 1 0) (lit 3 0, lit 1 0) = fzero.
Proof.
  cbv zeta. split; [intros; rewrite fabs_neg; reflexivity|]. split; [intros; rewrite fabs_neg; reflexivity|].
  repeat split; apply B2SF_inj; vm_compute; reflexivity.
Qed.
