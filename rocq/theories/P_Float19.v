(** Accuracy of the pseudorapidity (MomentumArray.eta) and of delta_R with pseudo=True, from the momenta, in IEEE doubles (C215, C216). *)
From Coq Require Import ZArith Reals List Bool Lia Lra.
From Flocq Require Import Core BinarySingleNaN.
From Verif Require Import Prelude SpecReal SpecIEEE SpecDist RealBase Kinem KinemProofs DeltaR DeltaRProofs Floats FloatBase FloatOps P_Float P_Float6 P_Float7 P_Float9.
Import ListNotations.
Open Scope R_scope.

(** * Vocabulary *)

(** A momentum given by three finite doubles of at most 2^500, at least 2^-500 away from the beam axis. *)
Definition measured (x y z : f64) : Prop := usable (x, y) /\ modest z.
(** The exact momentum the doubles stand for (the energy plays no part). *)
Definition exactly (x y z : f64) : mom := Mom (val x) (val y) (val z) 0.
(** The C library's atanh is accurate to [k] units inside (-1, 1). *)
Definition good_atanh (k : R) (atanh : f64 -> f64) : Prop := forall t, fin t -> -1 < val t < 1 ->
  fin (atanh t) /\ close k (val (atanh t)) (RealBase.arctanh (val t)).
(** How far from the beam axis: p^2 / pt^2 (the square of cosh eta). *)
Definition collimation (p : mom) : R := p_sq p / pt_sq p.
(** The error allowed to the pseudorapidity of [p] by routines accurate to [k] units. *)
Definition eta_error (k : R) (p : mom) : R :=
  (3 * k + 2) * u * ((Rabs (pz p) / sqrt (p_sq p) + min_normal) * collimation p) + k * u * (Rabs (pseudo_rap p) + min_normal).

(** * Perturbing arctanh *)

Lemma ln_le_sub : forall y, 0 < y -> ln y <= y - 1.
Proof.
  intros y Y. rewrite <- (ln_exp (y - 1)). destruct (Req_dec y 1) as [-> | N]; [replace (1 - 1) with 0 by ring; rewrite exp_0; lra|].
  left. apply ln_increasing; [exact Y|]. assert (y - 1 <> 0) as E by (intros E; apply N; lra). apply exp_ineq1 in E. lra.
Qed.

Lemma atanh_diff : forall t s, -1 < t < 1 -> -1 < s < 1 -> t <= s ->
  0 <= arctanh s - arctanh t <= (s - t) / ((1 + t) * (1 - s)).
Proof.
  intros t s T S L. unfold arctanh.
  assert (LD : forall a, -1 < a < 1 -> ln ((1 + a) / (1 - a)) = ln (1 + a) - ln (1 - a)).
  { intros a A. unfold Rdiv. rewrite ln_mult, ln_Rinv by (try apply Rinv_0_lt_compat; lra). ring. }
  rewrite !LD by assumption.
  assert (M : forall a b, 0 < a -> a <= b -> 0 <= ln b - ln a <= (b - a) / a).
  { intros a b A B. split.
    - destruct B as [B | -> ]; [|lra]. pose proof (ln_increasing a b A B). lra.
    - replace (ln b - ln a) with (ln (b / a)) by (unfold Rdiv; rewrite ln_mult, ln_Rinv by (try apply Rinv_0_lt_compat; lra); ring).
      eapply Rle_trans; [apply ln_le_sub; apply Rdiv_lt_0_compat; lra|]. right. field. lra. }
  destruct (M (1 + t) (1 + s)) as [A1 A2]; [lra | lra |]. destruct (M (1 - s) (1 - t)) as [B1 B2]; [lra | lra |]. split; [lra|].
  replace ((1 + s) - (1 + t)) with (s - t) in A2 by ring. replace ((1 - t) - (1 - s)) with (s - t) in B2 by ring.
  apply Rle_trans with (/ 2 * ((s - t) / (1 + t) + (s - t) / (1 - s))); [lra|].
  replace (/ 2 * ((s - t) / (1 + t) + (s - t) / (1 - s))) with ((s - t) / ((1 + t) * (1 - s)) * ((2 + t - s) / 2)) by (field; lra).
  rewrite <- (Rmult_1_r ((s - t) / ((1 + t) * (1 - s)))) at 2. apply Rmult_le_compat_l; [|lra].
  apply Rmult_le_pos; [lra|]. left. apply Rinv_0_lt_compat, Rmult_lt_0_compat; lra.
Qed.

Lemma atanh_perturb : forall t s, -1 < t < 1 -> 8 * Rabs (s - t) <= 1 - t * t ->
  -1 < s < 1 /\ Rabs (arctanh s - arctanh t) <= 4 / 3 * (Rabs (s - t) / (1 - t * t)).
Proof.
  intros t s T D. set (w := 1 - t * t) in *. assert (W : 0 < w) by (unfold w; nra).
  assert (S : -1 < s < 1). { unfold Rabs in D. destruct (Rcase_abs (s - t)); unfold w in *; nra. }
  split; [exact S|].
  assert (Q : forall a b, 0 <= a -> 0 < b -> 3 / 4 * w <= b -> a / b <= 4 / 3 * (a / w)).
  { intros a b A B H. replace (4 / 3 * (a / w)) with (a / (3 / 4 * w)) by (field; lra). apply Rmult_le_compat_l; [exact A|]. apply Rinv_le_contravar; lra. }
  destruct (Rle_dec t s) as [L|L].
  - destruct (atanh_diff t s T S L) as [A B]. rewrite Rabs_pos_eq by exact A. rewrite Rabs_pos_eq in D |- * by lra.
    eapply Rle_trans; [exact B|]. apply Q; [lra | apply Rmult_lt_0_compat; lra |]. unfold w in *. nra.
  - destruct (atanh_diff s t S T) as [A B]; [lra|]. rewrite Rabs_left1 by lra. rewrite Rabs_left1 in D |- * by lra.
    replace (- (s - t)) with (t - s) in * by ring. replace (- (arctanh s - arctanh t)) with (arctanh t - arctanh s) by ring.
    eapply Rle_trans; [exact B|]. apply Q; [lra | apply Rmult_lt_0_compat; lra |]. unfold w in *. nra.
Qed.

(** * The rounded cosine of the polar angle *)

Lemma mn_half : 1000000 * min_normal <= / 2 ^ 500 /\ forall T, / 2 ^ 500 <= T -> min_normal <= / 1000000 * T.
Proof.
  destruct mn_tiny as [M _]. assert (H : / 2 ^ 1000 <= / 2 ^ 500) by (apply Rinv_le_contravar; [apply pow_lt; lra | apply Rle_pow; [lra | lia]]).
  split; [lra|]. intros T HT. lra.
Qed.

Lemma quot_pert : forall z P h a, 0 < P -> 0 <= a <= / 2 -> Rabs (h - P) <= a * P -> 0 < h /\ Rabs (z / h - z / P) <= (Rabs z / P) * (a / (1 - a)).
Proof.
  intros z P h a HP A D. pose proof (Rabs_le_inv _ _ D) as D'.
  assert (HH : (1 - a) * P <= h) by lra. assert (H1 : 0 < (1 - a) * P) by (apply Rmult_lt_0_compat; lra). split; [lra|].
  replace (z / h - z / P) with (z * (- (h - P)) * / (P * h)) by (field; lra).
  rewrite !Rabs_mult, Rabs_Ropp, (Rabs_pos_eq (/ (P * h))) by (left; apply Rinv_0_lt_compat, Rmult_lt_0_compat; lra).
  apply Rle_trans with (Rabs z * (a * P) * / (P * ((1 - a) * P))).
  - apply Rmult_le_compat; [apply Rmult_le_pos; apply Rabs_pos | left; apply Rinv_0_lt_compat, Rmult_lt_0_compat; lra | apply Rmult_le_compat_l; [apply Rabs_pos | exact D] |].
    apply Rinv_le_contravar; [apply Rmult_lt_0_compat; lra|]. apply Rmult_le_compat_l; lra.
  - right. field. lra.
Qed.

Lemma cos_ok : forall hypot k x y z, 1 <= k <= 1000 -> good_hypot k hypot -> measured x y z ->
  let t := val z / sqrt (p_sq (exactly x y z)) in
  fin (f_cos hypot x y z) /\ Rabs (val (f_cos hypot x y z) - t) <= (21 / 10 * k + 11 / 10) * u * (Rabs t + min_normal).
Proof.
  intros hypot k x y z K GH (US & MZ) t. pose proof u_b as [U0 U1]. pose proof mn_pos as MN. destruct mn_half as [_ MH].
  destruct US as ((FX & BX) & (FY & BY) & LT). unfold re, im in LT. cbn [fst snd] in *. destruct MZ as (FZ & BZ).
  set (T := sqrt (val x * val x + val y * val y)) in *. set (P := sqrt (p_sq (exactly x y z))) in *.
  assert (I0 : 0 < / 2 ^ 500) by (apply Rinv_0_lt_compat, pow_lt; lra). assert (B0 : 1 <= 2 ^ 500) by (apply pow_R1_Rle; lra).
  assert (SA : forall a, Rabs a * Rabs a = a * a) by (intros a; rewrite <- Rabs_mult; apply Rabs_pos_eq; nra).
  assert (TS : T * T = val x * val x + val y * val y) by (unfold T; apply sqrt_sqrt; nra).
  assert (EP : P = sqrt (val z * val z + T * T)). { unfold P, p_sq, exactly. cbn [px py pz]. rewrite TS. f_equal. ring. }
  assert (TU : T <= 2 * 2 ^ 500).
  { unfold T. rewrite <- (sqrt_square (2 * 2 ^ 500)) by lra. apply sqrt_le_1_alt. rewrite <- (SA (val x)), <- (SA (val y)).
    assert (Rabs (val x) * Rabs (val x) <= 2 ^ 500 * 2 ^ 500) by (apply Rmult_le_compat; auto using Rabs_pos).
    assert (Rabs (val y) * Rabs (val y) <= 2 ^ 500 * 2 ^ 500) by (apply Rmult_le_compat; auto using Rabs_pos). nra. }
  assert (TP : T <= P). { rewrite EP. rewrite <- (sqrt_square T) at 1 by lra. apply sqrt_le_1_alt. nra. }
  assert (ZP : Rabs (val z) <= P). { rewrite EP. rewrite <- (sqrt_square (Rabs (val z))) by apply Rabs_pos. apply sqrt_le_1_alt. rewrite SA. nra. }
  assert (PU : P <= 3 * 2 ^ 500).
  { rewrite EP. rewrite <- (sqrt_square (3 * 2 ^ 500)) by lra. apply sqrt_le_1_alt. rewrite <- (SA (val z)).
    assert (Rabs (val z) * Rabs (val z) <= 2 ^ 500 * 2 ^ 500) by (apply Rmult_le_compat; auto using Rabs_pos).
    assert (T * T <= (2 * 2 ^ 500) * (2 * 2 ^ 500)) by (apply Rmult_le_compat; lra). nra. }
  assert (BIG : 8 * 2 ^ 500 <= 2 ^ 1020).
  { replace 1020%nat with (500 + 520)%nat by reflexivity. rewrite pow_add. assert (8 <= 2 ^ 520) by (apply Rle_trans with (2 ^ 3); [simpl; lra | apply Rle_pow; [lra | lia]]). nra. }
  destruct (GH x y FX FY) as (F1 & C1); [fold T; lra|]. fold T in C1. unfold close in C1. rewrite (Rabs_pos_eq T) in C1 by lra.
  set (h1 := hypot x y) in *. set (ku := k * u) in *.
  assert (KU : 0 <= ku <= / 1000000). { unfold ku. split; [apply Rmult_le_pos; lra|]. apply Rle_trans with (1000 * u); [apply Rmult_le_compat_r; lra | unfold u; simpl; lra]. }
  assert (D1 : Rabs (val h1 - T) <= 1001 / 1000 * ku * T).
  { eapply Rle_trans; [exact C1|]. replace (1001 / 1000 * ku * T) with (ku * (1001 / 1000 * T)) by ring. apply Rmult_le_compat_l; [lra|]. pose proof (MH T LT). lra. }
  set (P' := sqrt (val z * val z + val h1 * val h1)) in *.
  assert (D2 : Rabs (P' - P) <= 1001 / 1000 * ku * P).
  { rewrite EP at 1. unfold P'. eapply Rle_trans; [apply hypot_lip|]. replace (val z - val z) with 0 by ring. rewrite Rabs_R0, Rplus_0_l.
    eapply Rle_trans; [exact D1|]. apply Rmult_le_compat_l; [lra | exact TP]. }
  assert (SM : 1001 / 1000 * ku * P <= / 10000 * P) by (apply Rmult_le_compat_r; lra). pose proof (Rabs_le_inv _ _ D2) as D2'.
  destruct (GH z h1 FZ F1) as (F2 & C2); [fold P'; lra|]. fold P' in C2. unfold close in C2. fold ku in C2. rewrite (Rabs_pos_eq P') in C2 by (apply sqrt_pos).
  set (h2 := hypot z h1) in *.
  assert (D3 : Rabs (val h2 - P) <= 2003 / 1000 * ku * P).
  { replace (val h2 - P) with ((val h2 - P') + (P' - P)) by ring. eapply Rle_trans; [apply Rabs_triang|].
    assert (ku * (P' + min_normal) <= ku * (1002 / 1000 * P)); [apply Rmult_le_compat_l; [lra|] | lra].
    pose proof (MH P ltac:(lra)). lra. }
  destruct (quot_pert (val z) P (val h2) (2003 / 1000 * ku)) as (H0 & D4); [lra | lra | exact D3 |].
  assert (ET : Rabs (val z) / P = Rabs t). { unfold t, Rdiv. rewrite Rabs_mult, Rabs_inv, (Rabs_pos_eq P) by lra. reflexivity. }
  change (val z / P) with t in D4. rewrite ET in D4. set (q := val z / val h2) in *.
  assert (T1 : Rabs t <= 1). { rewrite <- ET. apply Rmult_le_reg_r with P; [lra|]. unfold Rdiv. rewrite Rmult_assoc, Rinv_l by lra. lra. }
  assert (A4 : 2003 / 1000 * ku / (1 - 2003 / 1000 * ku) <= 205 / 100 * ku).
  { apply Rmult_le_reg_r with (1 - 2003 / 1000 * ku); [lra|]. unfold Rdiv at 1. rewrite Rmult_assoc, Rinv_l by lra. nra. }
  pose proof (Rabs_pos t) as T0.
  assert (D5 : Rabs (q - t) <= 205 / 100 * ku * Rabs t).
  { eapply Rle_trans; [exact D4|]. rewrite (Rmult_comm (205 / 100 * ku)). apply Rmult_le_compat_l; assumption. }
  assert (Q1 : Rabs q <= 101 / 100 * Rabs t).
  { replace q with ((q - t) + t) by ring. eapply Rle_trans; [apply Rabs_triang|]. assert (205 / 100 * ku * Rabs t <= / 100 * Rabs t) by (apply Rmult_le_compat_r; lra). lra. }
  assert (HG : 2 <= SpecIEEE.huge) by (unfold SpecIEEE.huge; rewrite <- (pow_1 2) at 1; apply Rle_pow; [lra | lia]).
  unfold f_cos. fold h1. fold h2.
  destruct (fdiv_ok z h2 FZ F2) as (V & F & _); [lra | apply no_overflow; change (Rabs q <= SpecIEEE.huge); lra |]. split; [exact F|]. rewrite V. fold q.
  pose proof (nearest_err_any q) as NE. replace (nearest q - t) with ((nearest q - q) + (q - t)) by ring. eapply Rle_trans; [apply Rabs_triang|].
  assert (u * Rabs q <= 101 / 100 * (u * Rabs t)) by (replace (101 / 100 * (u * Rabs t)) with (u * (101 / 100 * Rabs t)) by ring; apply Rmult_le_compat_l; lra).
  replace ((21 / 10 * k + 11 / 10) * u * (Rabs t + min_normal)) with (21 / 10 * (ku * Rabs t) + 21 / 10 * (ku * min_normal) + 11 / 10 * (u * Rabs t) + 11 / 10 * (u * min_normal)) by (unfold ku; ring).
  assert (0 <= ku * Rabs t) by (apply Rmult_le_pos; lra). assert (0 <= ku * min_normal) by (apply Rmult_le_pos; lra).
  assert (0 <= u * Rabs t) by (apply Rmult_le_pos; lra). assert (0 <= u * min_normal) by (apply Rmult_le_pos; lra). lra.
Qed.

(** * C215 *)

Lemma sin_sq : forall p, 0 < pt_sq p -> let t := pz p / sqrt (p_sq p) in -1 < t < 1 /\ 1 - t * t = / collimation p /\ arctanh t = pseudo_rap p.
Proof.
  intros p H t. unfold collimation. assert (PQ : p_sq p = pt_sq p + pz p * pz p) by (unfold p_sq, pt_sq; ring).
  assert (PP : 0 < p_sq p) by nra. set (P := sqrt (p_sq p)) in *. assert (P0 : 0 < P) by (apply sqrt_lt_R0; exact PP).
  assert (PS : P * P = p_sq p) by (apply sqrt_sqrt; lra).
  assert (TT : 1 - t * t = pt_sq p / p_sq p). { unfold t. rewrite <- PS. rewrite PQ in PS. replace (pt_sq p) with (P * P - pz p * pz p) by lra. field. lra. }
  assert (0 < pt_sq p / p_sq p) by (apply Rdiv_lt_0_compat; assumption).
  split; [split; nra|]. split; [rewrite TT; field; lra|].
  unfold arctanh, pseudo_rap. fold P. f_equal. f_equal. unfold t. assert (P - pz p <> 0) by (intros E; assert (EZ : pz p = P) by lra; rewrite EZ, <- PS in PQ; lra). field. split; lra.
Qed.

Lemma measured_pt : forall x y z, measured x y z -> 0 < pt_sq (exactly x y z) /\ pt_sq (exactly x y z) <= p_sq (exactly x y z).
Proof.
  intros x y z ((_ & _ & L) & _). unfold re, im in L. cbn [fst snd] in L. unfold pt_sq, p_sq, exactly. cbn [px py pz].
  assert (I0 : 0 < / 2 ^ 500) by (apply Rinv_0_lt_compat, pow_lt; lra).
  split; [|nra]. destruct (Rle_lt_dec (val x * val x + val y * val y) 0) as [H|H]; [rewrite sqrt_neg_0 in L by exact H; lra | exact H].
Qed.

(** The computed pseudorapidity is finite and is the exact one up to [eta_error k]: a few units of the value, plus a few units times
    sinh(eta) cosh(eta), the growth towards the beam that no evaluation of arctanh(z/|p|) can avoid. *)
Theorem C215_accuracy : forall hypot atanh k, 1 <= k <= 1000 -> good_hypot k hypot -> good_atanh k atanh ->
  forall x y z, measured x y z -> let p := exactly x y z in (3 * k + 2) * u * collimation p <= / 8 ->
  fin (f_eta hypot atanh x y z) /\ Rabs (val (f_eta hypot atanh x y z) - pseudo_rap p) <= eta_error k p.
Proof.
  intros hypot atanh k K GH GA x y z M p C. pose proof u_b as [U0 U1]. pose proof mn_pos as MN. destruct mn_tiny as [_ MU].
  destruct (measured_pt x y z M) as [PT PL]. fold p in PT, PL. destruct (sin_sq p PT) as (T & TS & TA).
  destruct (cos_ok hypot k x y z K GH M) as (FC & DC). fold p in DC. change (val z) with (pz p) in DC. set (t := pz p / sqrt (p_sq p)) in *.
  set (c := f_cos hypot x y z) in *. set (A := collimation p) in *.
  assert (A1 : 1 <= A). { unfold A, collimation. apply Rmult_le_reg_r with (pt_sq p); [exact PT|]. unfold Rdiv. rewrite Rmult_assoc, Rinv_l by lra. lra. }
  set (ku := k * u) in *.
  assert (KU : 0 <= ku <= / 1000000). { unfold ku. split; [apply Rmult_le_pos; lra|]. apply Rle_trans with (1000 * u); [apply Rmult_le_compat_r; lra | unfold u; simpl; lra]. }
  assert (AT : Rabs t < 1) by (apply Rabs_def1; lra). pose proof (Rabs_pos t) as T0.
  set (m := Rabs t + min_normal) in *. assert (M0 : 0 <= m) by (unfold m; lra).
  assert (IA : 0 < / A) by (apply Rinv_0_lt_compat; lra). assert (AI : A * / A = 1) by (apply Rinv_r; lra).
  assert (MN1 : min_normal <= / 1000) by lra.
  assert (D8 : 8 * Rabs (val c - t) <= 1 - t * t).
  { rewrite TS. assert (B : 8 * ((3 * k + 2) * u) <= / A).
    { apply Rmult_le_reg_r with A; [lra|]. rewrite Rinv_l by lra. lra. }
    assert ((21 / 10 * k + 11 / 10) * u * m <= (3 * k + 2) * u); [|lra].
    replace ((3 * k + 2) * u) with (((3 * k + 2) * u) * 1) by ring.
    replace ((21 / 10 * k + 11 / 10) * u * m) with (((3 * k + 2) * u) * (((21 / 10 * k + 11 / 10) / (3 * k + 2)) * m)) by (field; lra).
    apply Rmult_le_compat_l; [apply Rmult_le_pos; lra|].
    apply Rle_trans with (9 / 10 * m); [|unfold m; lra]. apply Rmult_le_compat_r; [exact M0|].
    apply Rmult_le_reg_r with (3 * k + 2); [lra|]. unfold Rdiv. rewrite Rmult_assoc, Rinv_l by lra. lra. }
  destruct (atanh_perturb t (val c) T D8) as (CB & PA). rewrite TS, TA in PA.
  destruct (GA c FC CB) as (FE & CE). split; [exact FE|]. unfold close in CE. fold ku in CE. set (e0 := arctanh (val c)) in *. set (e1 := pseudo_rap p) in *.
  unfold f_eta. fold c. set (E := val (atanh c)) in *.
  assert (X : Rabs (val c - t) / / A = Rabs (val c - t) * A) by (unfold Rdiv; rewrite Rinv_inv; reflexivity). rewrite X in PA. clear X.
  set (w := u * (m * A)). assert (W0 : 0 <= w) by (unfold w; apply Rmult_le_pos; [lra | apply Rmult_le_pos; lra]).
  assert (G : Rabs (e0 - e1) <= (28 / 10 * k + 15 / 10) * w).
  { eapply Rle_trans; [exact PA|]. apply Rle_trans with (4 / 3 * ((21 / 10 * k + 11 / 10) * u * m * A)).
    - apply Rmult_le_compat_l; [lra|]. apply Rmult_le_compat_r; [lra | exact DC].
    - replace (4 / 3 * ((21 / 10 * k + 11 / 10) * u * m * A)) with (4 / 3 * (21 / 10 * k + 11 / 10) * w) by (unfold w; ring). apply Rmult_le_compat_r; lra. }
  replace (E - e1) with ((E - e0) + (e0 - e1)) by ring. eapply Rle_trans; [apply Rabs_triang|].
  assert (H0 : Rabs e0 <= Rabs e1 + Rabs (e0 - e1)). { replace e0 with (e1 + (e0 - e1)) at 1 by ring. apply Rabs_triang. }
  assert (H1 : ku * (Rabs e0 + min_normal) <= ku * (Rabs e1 + min_normal) + ku * Rabs (e0 - e1)).
  { rewrite <- Rmult_plus_distr_l. apply Rmult_le_compat_l; lra. }
  assert (H2 : ku * Rabs (e0 - e1) <= / 1000 * Rabs (e0 - e1)) by (apply Rmult_le_compat_r; [apply Rabs_pos | lra]).
  unfold eta_error. fold ku. fold e1. fold A.
  assert (HT : Rabs (pz p) / sqrt (p_sq p) = Rabs t). { unfold t, Rdiv. rewrite Rabs_mult, Rabs_inv, (Rabs_pos_eq (sqrt (p_sq p))) by apply sqrt_pos. reflexivity. }
  rewrite HT. fold m. replace ((3 * k + 2) * u * (m * A)) with ((3 * k + 2) * w) by (unfold w; ring).
  assert (1001 / 1000 * ((28 / 10 * k + 15 / 10) * w) <= (3 * k + 2) * w).
  { rewrite <- Rmult_assoc. apply Rmult_le_compat_r; lra. }
  lra.
Qed.

(** * C216 *)

Lemma eta_size : forall p, 0 < pt_sq p -> Rabs (pseudo_rap p) <= 2 * collimation p.
Proof.
  intros p H. destruct (sin_sq p H) as (T & TS & TA). set (t := pz p / sqrt (p_sq p)) in *. rewrite <- TA. unfold arctanh.
  assert (C0 : 0 < collimation p). { unfold collimation. apply Rdiv_lt_0_compat; [|exact H]. assert (p_sq p = pt_sq p + pz p * pz p) by (unfold p_sq, pt_sq; ring). nra. }
  assert (E : collimation p = / ((1 + t) * (1 - t))). { rewrite <- (Rinv_inv (collimation p)), <- TS. f_equal. ring. }
  assert (L : forall a, -1 < a < 1 -> / 2 * ln ((1 + a) / (1 - a)) <= 2 * / ((1 + a) * (1 - a))).
  { intros a A. apply Rle_trans with (/ 2 * ((1 + a) / (1 - a) - 1)).
    - apply Rmult_le_compat_l; [lra|]. apply ln_le_sub. apply Rdiv_lt_0_compat; lra.
    - replace (/ 2 * ((1 + a) / (1 - a) - 1)) with (a * (1 + a) * / ((1 + a) * (1 - a))) by (field; lra).
      apply Rmult_le_compat_r; [left; apply Rinv_0_lt_compat, Rmult_lt_0_compat; lra | nra]. }
  apply Rabs_le. rewrite E. split; [|apply L; lra].
  pose proof (L (- t) ltac:(lra)) as Q. replace (1 + - t) with (1 - t) in Q by ring. replace (1 - - t) with (1 + t) in Q by ring. rewrite (Rmult_comm (1 - t)) in Q.
  replace ((1 - t) / (1 + t)) with (/ ((1 + t) / (1 - t))) in Q by (field; lra). rewrite ln_Rinv in Q by (apply Rdiv_lt_0_compat; lra). lra.
Qed.

(** delta_R with pseudo=True, from the momenta of the two particles: the computed distance differs from the exact distance of their
    pseudorapidities and azimuths by [2k + 2] units of it, 4 units absolute, and the errors of the two pseudorapidities. *)
Theorem C216_accuracy : forall hypot atan2 atanh k, 1 <= k <= 1000 -> good_hypot k hypot -> good_atan2 k atan2 -> good_atanh k atanh ->
  forall x y z x' y' z' g, measured x y z -> measured x' y' z' -> gap (x, y) (x', y') g ->
  let p := exactly x y z in let q := exactly x' y' z' in
  (3 * k + 2) * u * collimation p <= / 8 -> (3 * k + 2) * u * collimation q <= / 8 ->
  let exact := sqrt ((pseudo_rap p - pseudo_rap q) * (pseudo_rap p - pseudo_rap q) + g * g) in
  let computed := f_delta hypot atan2 (f_eta hypot atanh x y z) (f_eta hypot atanh x' y' z') (x, y) (x', y') in
  fin computed /\ Rabs (val computed - exact) <= ((2 * k + 2) * exact + 4) * u + 101 / 100 * (eta_error k p + eta_error k q).
Proof.
  intros hypot atan2 atanh k K GH GA GT x y z x' y' z' g M M' G p q C C' exact computed.
  pose proof u_b as [U0 U1]. pose proof mn_pos as MN. destruct mn_tiny as [_ MU].
  destruct (C215_accuracy hypot atanh k K GH GT x y z M C) as (F1 & A1). destruct (C215_accuracy hypot atanh k K GH GT x' y' z' M' C') as (F2 & A2). fold p in A1. fold q in A2.
  unfold computed. set (r1 := f_eta hypot atanh x y z) in *. set (r2 := f_eta hypot atanh x' y' z') in *.
  set (e1 := pseudo_rap p) in *. set (e2 := pseudo_rap q) in *.
  assert (KU : 0 <= k * u <= / 1000000). { split; [apply Rmult_le_pos; lra|]. apply Rle_trans with (1000 * u); [apply Rmult_le_compat_r; lra | unfold u; simpl; lra]. }
  assert (UB : / u <= 2 ^ 53) by (unfold u; rewrite Rinv_inv; lra).
  assert (SZ : forall a b c, measured a b c -> (3 * k + 2) * u * collimation (exactly a b c) <= / 8 ->
    Rabs (pseudo_rap (exactly a b c)) <= 2 ^ 53 /\ eta_error k (exactly a b c) <= 2 ^ 53).
  { intros a b c MM CC. destruct (measured_pt a b c MM) as [PT PL]. pose proof (eta_size _ PT) as S. destruct (sin_sq _ PT) as (T & _ & _). unfold eta_error.
    set (o := exactly a b c) in *. set (A := collimation o) in *. set (t := pz o / sqrt (p_sq o)) in *.
    assert (A0 : 1 <= A). { unfold A, collimation. apply Rmult_le_reg_r with (pt_sq o); [exact PT|]. unfold Rdiv. rewrite Rmult_assoc, Rinv_l by lra. lra. }
    assert (AB : 2 * A <= / u). { apply Rmult_le_reg_r with u; [lra|]. rewrite Rinv_l by lra. assert (5 * u * A <= (3 * k + 2) * u * A) by (apply Rmult_le_compat_r; [lra|]; apply Rmult_le_compat_r; lra). lra. }
    assert (HT : Rabs (pz o) / sqrt (p_sq o) = Rabs t). { unfold t, Rdiv. rewrite Rabs_mult, Rabs_inv, (Rabs_pos_eq (sqrt (p_sq o))) by apply sqrt_pos. reflexivity. }
    rewrite HT. assert (AT : Rabs t <= 1) by (apply Rabs_le; lra). pose proof (Rabs_pos t).
    split; [lra|].
    assert (X1 : (3 * k + 2) * u * ((Rabs t + min_normal) * A) <= / 8 * 2).
    { replace ((3 * k + 2) * u * ((Rabs t + min_normal) * A)) with (((3 * k + 2) * u * A) * (Rabs t + min_normal)) by ring.
      apply Rmult_le_compat; [apply Rmult_le_pos; [apply Rmult_le_pos|]; lra | lra | exact CC | lra]. }
    assert (X2 : k * u * (Rabs (pseudo_rap o) + min_normal) <= / 1000000 * (2 * A + 1)).
    { apply Rmult_le_compat; [lra | pose proof (Rabs_pos (pseudo_rap o)); lra | lra | lra]. }
    assert (1 <= 2 ^ 53) by (apply pow_R1_Rle; lra). lra. }
  destruct (SZ x y z M C) as (S1 & S1'). destruct (SZ x' y' z' M' C') as (S2 & S2'). fold p in S1, S1'. fold q in S2, S2'. fold e1 in S1. fold e2 in S2. clear SZ.
  set (b1 := eta_error k p) in *. set (b2 := eta_error k q) in *. clearbody b1 b2 e1 e2.
  assert (BIG : 2 * 2 ^ 53 <= 2 ^ 1000). { replace 1000%nat with (53 + 947)%nat by reflexivity. rewrite pow_add. assert (2 <= 2 ^ 947) by (rewrite <- (pow_1 2) at 1; apply Rle_pow; [lra | lia]). assert (0 < 2 ^ 53) by (apply pow_lt; lra). nra. }
  assert (W : forall r e b : R, Rabs (r - e) <= b -> Rabs e <= 2 ^ 53 -> b <= 2 ^ 53 -> Rabs r <= 2 ^ 1000).
  { intros r e b X Y Z. replace r with ((r - e) + e) by ring. eapply Rle_trans; [apply Rabs_triang|]. lra. }
  destruct M as (US & MZ). destruct M' as (US' & MZ').
  destruct (C174_accuracy hypot atan2 k ltac:(lra) GH GA r1 r2 (x, y) (x', y') g F1 F2 (W _ _ _ A1 S1 S1') (W _ _ _ A2 S2 S2') US US' G) as (F & A).
  split; [exact F|]. set (D := val (f_delta hypot atan2 r1 r2 (x, y) (x', y'))) in *.
  set (mid := sqrt ((val r1 - val r2) * (val r1 - val r2) + g * g)) in *.
  assert (L : Rabs (mid - exact) <= b1 + b2).
  { unfold mid, exact. eapply Rle_trans; [apply hypot_lip|]. replace (g - g) with 0 by ring. rewrite Rabs_R0.
    replace (val r1 - val r2 - (e1 - e2)) with ((val r1 - e1) + - (val r2 - e2)) by ring. eapply Rle_trans; [apply Rplus_le_compat_r, Rabs_triang|]. rewrite Rabs_Ropp. lra. }
  replace (D - exact) with ((D - mid) + (mid - exact)) by ring. eapply Rle_trans; [apply Rabs_triang|]. apply Rabs_le_inv in L as L'.
  assert (B0 : 0 <= b1 + b2) by (pose proof (Rabs_pos (mid - exact)); lra).
  assert (X : (2 * k + 2) * u * mid <= (2 * k + 2) * u * exact + / 100 * (b1 + b2)).
  { apply Rle_trans with ((2 * k + 2) * u * (exact + (b1 + b2))); [apply Rmult_le_compat_l; [apply Rmult_le_pos; lra | lra]|].
    rewrite Rmult_plus_distr_l. apply Rplus_le_compat_l. apply Rmult_le_compat_r; lra. }
  replace (((2 * k + 2) * mid + 4) * u) with ((2 * k + 2) * u * mid + 4 * u) in A by ring.
  replace (((2 * k + 2) * exact + 4) * u) with ((2 * k + 2) * u * exact + 4 * u) by ring. lra.
Qed.

(** * A correctly rounded atanh, and a concrete case *)

Lemma below_one : forall x : f64, val x < 1 -> val x <= 1 - u.
Proof.
  intros x H. replace (1 - u) with (pred radix2 (FLT_exp (-1074) 53) 1).
  - apply pred_ge_gt; [typeclasses eauto | apply val_fmt | | exact H].
    change 1 with (bpow radix2 0). apply generic_format_bpow. unfold FLT_exp. lia.
  - change 1 with (bpow radix2 0) at 1. rewrite pred_bpow. change (FLT_exp (-1074) 53 0) with (-53)%Z. unfold u. f_equal.
    change (bpow radix2 (- (53)) = / 2 ^ 53). rewrite bpow_opp, <- (IZR_Zpower radix2) by lia. f_equal. rewrite pow_IZR. f_equal.
Qed.

Definition ref_atanh (t : f64) : f64 := of_R (RealBase.arctanh (val t)).
Lemma ref_atanh_good : good_atanh 1 ref_atanh.
Proof.
  intros t F T. pose proof u_b as [U0 U1].
  assert (L : forall a, -1 < a <= 1 - u -> arctanh a <= / u).
  { intros a A. unfold arctanh. apply Rle_trans with (/ 2 * ((1 + a) / (1 - a) - 1)).
    - apply Rmult_le_compat_l; [lra|]. apply ln_le_sub. apply Rdiv_lt_0_compat; lra.
    - replace (/ 2 * ((1 + a) / (1 - a) - 1)) with (a * / (1 - a)) by (field; lra). assert (/ (1 - a) <= / u) by (apply Rinv_le_contravar; lra).
      assert (0 < / (1 - a)) by (apply Rinv_0_lt_compat; lra). nra. }
  assert (N : forall a, -1 < a < 1 -> arctanh (- a) = - arctanh a).
  { intros a A. unfold arctanh. replace ((1 + - a) / (1 - - a)) with (/ ((1 + a) / (1 - a))) by (field; lra). rewrite ln_Rinv by (apply Rdiv_lt_0_compat; lra). ring. }
  assert (B1 : val t <= 1 - u) by (apply below_one; lra).
  assert (B2 : - val t <= 1 - u). { rewrite <- fneg_ok. apply below_one. rewrite fneg_ok. lra. }
  destruct (of_R_ok (arctanh (val t))) as (F' & V).
  - apply no_overflow. apply Rle_trans with (/ u).
    + apply Rabs_le. pose proof (L (val t) ltac:(lra)). pose proof (L (- val t) ltac:(lra)) as Q. rewrite N in Q by exact T. lra.
    + unfold u, SpecIEEE.huge. rewrite Rinv_inv. apply Rle_pow; [lra | lia].
  - split; [exact F'|]. unfold ref_atanh. rewrite V. apply close_nearest.
Qed.

(** A concrete case: momenta (1, 1, 1) and (1 + 2^-20, 1 + 3 2^-20, 1), with correctly rounded routines. *)
Example C215_case : measured (near1 0) (near1 0) (near1 0) /\ measured (near1 4294967296) (near1 12884901888) (near1 0) /\
  (3 * 1 + 2) * u * collimation (exactly (near1 0) (near1 0) (near1 0)) <= / 8 /\
  (3 * 1 + 2) * u * collimation (exactly (near1 4294967296) (near1 12884901888) (near1 0)) <= / 8 /\
  good_hypot 1 ref_hypot /\ good_atan2 1 ref_atan2 /\ good_atanh 1 ref_atanh /\
  pseudo_rap (exactly (near1 0) (near1 0) (near1 0)) <> 0.
Proof.
  assert (M : modest (near1 0)) by (apply (usable_near1 0 0); lia). pose proof u_b as [U0 U1].
  assert (V : forall n, (0 <= n < 2 ^ 40)%Z -> 1 <= val (near1 n) <= 2).
  { intros n H. destruct (near1_ok n H) as [E _]. rewrite E. assert (0 <= IZR n) by (apply IZR_le; lia). assert (IZR n <= 2 ^ 40) by (rewrite pow_IZR; apply IZR_le; lia).
    assert (B : bpow radix2 (-52) = / 2 ^ 52) by (change (bpow radix2 (- (52)) = / 2 ^ 52); rewrite bpow_opp, <- (IZR_Zpower radix2) by lia; rewrite pow_IZR; reflexivity).
    rewrite B. assert (P : 0 < 2 ^ 52) by (apply pow_lt; lra). assert (0 < / 2 ^ 52) by (apply Rinv_0_lt_compat; exact P).
    assert (IZR n * / 2 ^ 52 <= 1). { apply Rmult_le_reg_r with (2 ^ 52); [exact P|]. rewrite Rmult_assoc, Rinv_l by lra. assert (2 ^ 40 <= 2 ^ 52) by (apply Rle_pow; [lra | lia]). lra. }
    nra. }
  assert (Q : forall a b, (0 <= a < 2 ^ 40)%Z -> (0 <= b < 2 ^ 40)%Z -> (3 * 1 + 2) * u * collimation (exactly (near1 a) (near1 b) (near1 0)) <= / 8).
  { intros a b Ha Hb. pose proof (V a Ha). pose proof (V b Hb). pose proof (V 0%Z ltac:(lia)).
    assert (collimation (exactly (near1 a) (near1 b) (near1 0)) <= 3); [|nra].
    unfold collimation, p_sq, pt_sq, exactly. cbn [px py pz]. apply Rmult_le_reg_r with (val (near1 a) * val (near1 a) + val (near1 b) * val (near1 b)); [nra|].
    unfold Rdiv. rewrite Rmult_assoc, Rinv_l by nra. nra. }
  split; [split; [apply usable_near1; lia | exact M]|]. split; [split; [apply usable_near1; lia | exact M]|].
  split; [apply Q; lia|]. split; [apply Q; lia|]. split; [apply ref_hypot_good|]. split; [apply ref_atan2_good|]. split; [apply ref_atanh_good|].
  set (p := exactly (near1 0) (near1 0) (near1 0)). intros E. pose proof (V 0%Z ltac:(lia)) as W.
  assert (PT : 0 < pt_sq p) by (unfold p, pt_sq, exactly; cbn [px py]; nra).
  pose proof (sinh_pseudo p PT) as S. rewrite E, sinh_0 in S. assert (0 < sqrt (pt_sq p)) by (apply sqrt_lt_R0; exact PT).
  assert (0 < pz p / sqrt (pt_sq p)) by (apply Rdiv_lt_0_compat; [unfold p, exactly; cbn [pz]; lra | assumption]). lra.
Qed.

Print Assumptions C215_accuracy.
Print Assumptions C216_accuracy.
