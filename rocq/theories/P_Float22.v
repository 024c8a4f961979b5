(** from_spherical_uniform in IEEE doubles (C223, C224). *)
From Coq Require Import ZArith Reals List Bool Lia Lra.
From Flocq Require Import Core BinarySingleNaN.
From Verif Require Import Prelude SpecReal SpecIEEE RealBase Kinem KinemProofs Floats FloatBase FloatOps Floats3 Floats5 P_Float P_Float4 P_Float5 P_Float6 P_Float7 P_Float9 P_Float10 P_Float11 P_Float14 P_Float16 Floats10.
Import ListNotations.
Open Scope R_scope.

(** * Vocabulary *)
(** The library's exponential of an imaginary number is accurate to [k] units, absolutely. *)
Definition good_cexp (k : R) (cexp : fcomplex -> fcomplex) : Prop := forall re im, fin re -> fin im -> val re = 0 ->
  fin (fst (cexp (re, im))) /\ fin (snd (cexp (re, im))) /\ Rabs (val (fst (cexp (re, im))) - cos (val im)) <= k * u /\ Rabs (val (snd (cexp (re, im))) - sin (val im)) <= k * u.
(** The library's arccos gives a number on its domain. *)
Definition good_arccos (arccos : f64 -> f64) : Prop := forall x, fin x -> -1 <= val x <= 1 -> fin (arccos x).
(** The random numbers of one row: energy in [2^-400, 2^400], mass in [0, energy], a number in [0, 1] and an angle. *)
Definition drawn (d : fdraw) : Prop :=
  fin (fd_e d) /\ fin (fd_m d) /\ fin (fd_u d) /\ fin (fd_r d) /\ fin (fd_phi d) /\
  / 2 ^ 400 <= val (fd_e d) <= 2 ^ 400 /\ 0 <= val (fd_m d) <= val (fd_e d) /\ 0 <= val (fd_r d) <= 1.
(** The mass the row is to have: zero if the row is massless. *)
Definition target (massless : f64) (d : fdraw) (m : R) : Prop :=
  (val massless = 0 -> m = val (fd_m d)) /\ (val massless = 1 -> m = 0) /\
  (0 < val massless < 1 -> val (fd_u d) < val massless -> m = 0) /\ (0 < val massless < 1 -> val massless <= val (fd_u d) -> m = val (fd_m d)).

(** * Multiplying by a real and by an imaginary number *)
Lemma zero_ok : fin fzero /\ val fzero = 0. Proof. split; reflexivity. Qed.
Lemma mul0l a b : fin a -> fin b -> val a = 0 -> fin (fmul a b) /\ val (fmul a b) = 0.
Proof.
  intros Fa Fb A. destruct (fmul_ok a b Fa Fb) as (V & F & _); rewrite A, Rmult_0_l, nearest_0 in *.
  - rewrite Rabs_R0. apply bpow_gt_0.
  - split; assumption.
Qed.
Lemma mul1l a b : fin a -> fin b -> val a = 1 -> fin (fmul a b) /\ val (fmul a b) = val b.
Proof.
  intros Fa Fb A. assert (E : nearest (val a * val b) = val b) by (rewrite A, Rmult_1_l; apply nearest_id, val_fmt).
  destruct (fmul_ok a b Fa Fb) as (V & F & _); rewrite E in *; [apply val_lt | split; assumption].
Qed.
Lemma sel_sub : forall x y X, fin x -> fin y -> val x - val y = val X -> fin (fsub x y) /\ val (fsub x y) = val X.
Proof.
  intros x y X Fx Fy E. assert (N : nearest (val x - val y) = val X) by (rewrite E; apply nearest_id, val_fmt).
  destruct (fsub_ok x y Fx Fy) as (V & F & _); rewrite N in *; [apply val_lt | split; assumption].
Qed.
Lemma times_i_ok t : fin t -> exists re im, times_i t = (re, im) /\ fin re /\ fin im /\ val re = 0 /\ val im = val t.
Proof.
  intros F. destruct one_val as (V1 & F1). destruct zero_ok as (F0 & V0). unfold times_i, cmul. cbn [fst snd].
  destruct (mul0l fzero t F0 F V0) as (A1 & A2). destruct (mul1l fone fzero F1 F0 V1) as (B1 & B2). destruct (mul0l fzero fzero F0 F0 V0) as (C1 & C2). destruct (mul1l fone t F1 F V1) as (D1 & D2).
  destruct (sel_sub _ _ fzero A1 B1) as (E1 & E2); [rewrite A2, B2, V0; ring|]. destruct (sel_add _ _ t C1 D1) as (G1 & G2); [rewrite C2, D2; ring|].
  eexists. eexists. split; [reflexivity|]. split; [exact E1|]. split; [exact G1|]. split; [rewrite E2; exact V0 | exact G2].
Qed.
Lemma cmul_real p c s : fin p -> fin c -> fin s -> fin (fmul p c) -> fin (fmul p s) ->
  let r := cmul (p, fzero) (c, s) in fin (fst r) /\ fin (snd r) /\ val (fst r) = val (fmul p c) /\ val (snd r) = val (fmul p s).
Proof.
  intros Fp Fc Fs M1 M2 r. destruct zero_ok as (F0 & V0). unfold r, cmul. cbn [fst snd].
  destruct (mul0l fzero s F0 Fs V0) as (A1 & A2). destruct (mul0l fzero c F0 Fc V0) as (B1 & B2).
  destruct (sel_sub _ _ (fmul p c) M1 A1) as (E1 & E2); [rewrite A2; ring|]. destruct (sel_add _ _ (fmul p s) M2 B1) as (G1 & G2); [rewrite B2; ring|].
  split; [exact E1|]. split; [exact G1|]. split; assumption.
Qed.

Lemma cos_le1 t : Rabs (cos t) <= 1. Proof. apply Rabs_le. apply COS_bound. Qed.
Lemma sin_le1 t : Rabs (sin t) <= 1. Proof. apply Rabs_le. apply SIN_bound. Qed.

(** * The direction: any finite magnitude *)
Lemma square_near c m x X : 0 <= c <= 1000 -> 0 <= m -> near c m x X -> Rabs X <= m -> Rabs (x * x - X * X) <= 201 / 100 * c * u * (m * m).
Proof.
  intros C M N B. unfold near in N. pose proof u_dec as (U0 & U1). replace (x * x - X * X) with ((x - X) * (x - X + 2 * X)) by ring. rewrite Rabs_mult.
  assert (S : Rabs (x - X + 2 * X) <= 201 / 100 * m).
  { eapply Rle_trans; [apply Rabs_triang|]. rewrite Rabs_mult, (Rabs_pos_eq 2) by lra. assert (CU : c * u <= / 100000) by (apply bigger_u; lra). assert (c * u * m <= / 100000 * m) by (apply Rmult_le_compat_r; lra). lra. }
  replace (201 / 100 * c * u * (m * m)) with (c * u * m * (201 / 100 * m)) by field. apply Rmult_le_compat; try apply Rabs_pos; assumption.
Qed.

Lemma direction cexp k theta angle p P : 0 <= k <= 10 -> good_cexp k cexp -> fin theta -> fin angle -> ap 6 1 P p P -> scale P -> 0 <= P ->
  let t := cmul (p, fzero) (cexp (times_i theta)) in let f := cmul (fst t, fzero) (cexp (times_i angle)) in
  fin (fst f) /\ fin (snd f) /\ fin (snd t) /\
  Rabs (val (fst f) * val (fst f) + val (snd f) * val (snd f) + val (snd t) * val (snd t) - P * P) <= (11 * k + 60) * u * (P * P).
Proof.
  intros K GC FT FA AP SP P0. cbv zeta. destruct (times_i_ok theta FT) as (re & im & E & R1 & R2 & R3 & R4). destruct (times_i_ok angle FA) as (re' & im' & E' & R1' & R2' & R3' & R4').
  rewrite E, E'. clear E E'. destruct (GC re im R1 R2 R3) as (C1 & C2 & C3 & C4). destruct (GC re' im' R1' R2' R3') as (D1 & D2 & D3 & D4). rewrite R4 in C3, C4. rewrite R4' in D3, D4.
  destruct (cexp (re, im)) as (c, s). destruct (cexp (re', im')) as (c', s'). cbn [fst snd] in *. set (T := val theta) in *. set (A := val angle) in *.
  assert (K1 : forall x X, fin x -> Rabs (val x - X) <= k * u -> Rabs X <= 1 -> ap k 1 1 x X). { intros x X F N B. split; [exact F|]. split; [unfold near; lra | lra]. }
  assert (SP1 : P = P * 1) by ring.
  assert (TB : forall w, Rabs w <= 1 -> Rabs (P * w) <= 1 * P). { intros w W. rewrite Rabs_mult, (Rabs_pos_eq P P0), Rmult_1_l. rewrite <- (Rmult_1_r P) at 2. apply Rmult_le_compat_l; assumption. }
  pose proof (ap_mul 1 (k + 8) P 6 k 1 1 P 1 p P c (cos T) AP (K1 _ _ C1 C3 (cos_le1 T)) SP1 SP P0 ltac:(lra) ltac:(lra) ltac:(lra) ltac:(lra) ltac:(lra) ltac:(lra) (TB _ (cos_le1 T)) ltac:(lra)) as AC.
  pose proof (ap_mul 1 (k + 8) P 6 k 1 1 P 1 p P s (sin T) AP (K1 _ _ C2 C4 (sin_le1 T)) SP1 SP P0 ltac:(lra) ltac:(lra) ltac:(lra) ltac:(lra) ltac:(lra) ltac:(lra) (TB _ (sin_le1 T)) ltac:(lra)) as AS.
  destruct AP as (Fp & _). destruct AC as (FC & NC & BC). destruct AS as (FS & NS & BS).
  destruct (cmul_real p c s Fp C1 C2 FC FS) as (G1 & G2 & G3 & G4). set (t := cmul (p, fzero) (c, s)) in *. set (tr := fst t) in *. set (ti := snd t) in *.
  assert (AT : ap (k + 8) 1 P tr (P * cos T)) by (split; [exact G1 | split; [rewrite G3; exact NC | exact BC]]).
  assert (TB2 : forall w, Rabs w <= 1 -> Rabs (P * cos T * w) <= 1 * P). { intros w W. rewrite Rabs_mult, <- (Rmult_1_r (1 * P)). apply Rmult_le_compat; try apply Rabs_pos; assumption. }
  pose proof (ap_mul 1 (2 * k + 10) P (k + 8) k 1 1 P 1 tr _ c' (cos A) AT (K1 _ _ D1 D3 (cos_le1 A)) SP1 SP P0 ltac:(lra) ltac:(lra) ltac:(lra) ltac:(lra) ltac:(lra) ltac:(lra) (TB2 _ (cos_le1 A)) ltac:(lra)) as XC.
  pose proof (ap_mul 1 (2 * k + 10) P (k + 8) k 1 1 P 1 tr _ s' (sin A) AT (K1 _ _ D2 D4 (sin_le1 A)) SP1 SP P0 ltac:(lra) ltac:(lra) ltac:(lra) ltac:(lra) ltac:(lra) ltac:(lra) (TB2 _ (sin_le1 A)) ltac:(lra)) as XS.
  destruct XC as (FX & NX & BX). destruct XS as (FY & NY & BY).
  destruct (cmul_real tr c' s' G1 D1 D2 FX FY) as (H1 & H2 & H3 & H4). split; [exact H1|]. split; [exact H2|]. split; [exact G2|]. rewrite H3, H4, G4.
  rewrite Rmult_1_l in BX, BY, BS.
  pose proof (square_near (2 * k + 10) P _ _ ltac:(lra) P0 NX BX) as Q1. pose proof (square_near (2 * k + 10) P _ _ ltac:(lra) P0 NY BY) as Q2. pose proof (square_near (k + 8) P _ _ ltac:(lra) P0 NS BS) as Q3.
  set (x := val (fmul tr c')) in *. set (y := val (fmul tr s')) in *. set (z := val (fmul p s)) in *.
  assert (I : P * P = P * cos T * cos A * (P * cos T * cos A) + P * cos T * sin A * (P * cos T * sin A) + P * sin T * (P * sin T)).
  { pose proof (sin2_cos2 T) as S1. pose proof (sin2_cos2 A) as S2. unfold Rsqr in S1, S2.
    transitivity (P * P * (cos T * cos T * (sin A * sin A + cos A * cos A) + sin T * sin T)); [rewrite S2, Rmult_1_r, Rplus_comm, S1; ring | ring]. }
  set (X := P * cos T * cos A) in *. set (Y := P * cos T * sin A) in *. set (Z := P * sin T) in *.
  replace (x * x + y * y + z * z - P * P) with ((x * x - X * X) + (y * y - Y * Y) + (z * z - Z * Z)) by lra.
  eapply Rle_trans; [apply Rabs_triang|]. eapply Rle_trans; [apply Rplus_le_compat_r, Rabs_triang|]. pose proof u_dec as (U0 & _).
  assert (UP : 0 <= u * (P * P)) by (apply Rmult_le_pos; [lra | apply Rle_0_sqr]). assert (KP : 0 <= k * (u * (P * P))) by (apply Rmult_le_pos; lra).
  eapply Rle_trans; [apply Rplus_le_compat; [apply Rplus_le_compat; [exact Q1 | exact Q2] | exact Q3]|].
  replace (201 / 100 * (2 * k + 10) * u * (P * P) + 201 / 100 * (2 * k + 10) * u * (P * P) + 201 / 100 * (k + 8) * u * (P * P)) with (1005 / 100 * (k * (u * (P * P))) + 5628 / 100 * (u * (P * P))) by field.
  replace ((11 * k + 60) * u * (P * P)) with (11 * (k * (u * (P * P))) + 60 * (u * (P * P))) by ring. lra.
Qed.

(** A zero magnitude gives exactly zero. *)
Lemma direction0 cexp k theta angle p : good_cexp k cexp -> fin theta -> fin angle -> fin p -> val p = 0 ->
  let t := cmul (p, fzero) (cexp (times_i theta)) in let f := cmul (fst t, fzero) (cexp (times_i angle)) in
  fin (fst f) /\ fin (snd f) /\ fin (snd t) /\ val (fst f) = 0 /\ val (snd f) = 0 /\ val (snd t) = 0.
Proof.
  intros GC FT FA Fp Vp. cbv zeta. destruct (times_i_ok theta FT) as (re & im & E & R1 & R2 & R3 & R4). destruct (times_i_ok angle FA) as (re' & im' & E' & R1' & R2' & R3' & R4').
  rewrite E, E'. clear E E'. destruct (GC re im R1 R2 R3) as (C1 & C2 & _). destruct (GC re' im' R1' R2' R3') as (D1 & D2 & _).
  destruct (cexp (re, im)) as (c, s). destruct (cexp (re', im')) as (c', s'). cbn [fst snd] in *.
  destruct (mul0l p c Fp C1 Vp) as (A1 & A2). destruct (mul0l p s Fp C2 Vp) as (A3 & A4).
  destruct (cmul_real p c s Fp C1 C2 A1 A3) as (G1 & G2 & G3 & G4). set (t := cmul (p, fzero) (c, s)) in *. set (tr := fst t) in *.
  rewrite A2 in G3. destruct (mul0l tr c' G1 D1 G3) as (B1 & B2). destruct (mul0l tr s' G1 D2 G3) as (B3 & B4).
  destruct (cmul_real tr c' s' G1 D1 D2 B1 B3) as (H1 & H2 & H3 & H4). split; [exact H1|]. split; [exact H2|]. split; [exact G2|]. rewrite H3, H4, G4. split; [exact B2|]. split; [exact B4 | exact A4].
Qed.

(** * The magnitude *)
Lemma doubles_apart (x y : f64) : val y < val x -> bpow radix2 (-1074) <= val x - val y.
Proof.
  intros L. assert (G : forall z : f64, exists n, val z = IZR n * bpow radix2 (-1074)).
  { intros z. pose proof (val_fmt z) as F. unfold fmt in F. 
    assert (F' : generic_format radix2 (FIX_exp (-1074)) (val z)) by (eapply generic_format_FIX_FLT; exact F).
    apply FIX_format_generic in F'. destruct F' as [f Ef Ee]. exists (Fnum f). rewrite Ef. unfold F2R. rewrite Ee. reflexivity. }
  destruct (G x) as (a & A). destruct (G y) as (b & B). rewrite A, B in *. pose proof (bpow_gt_0 radix2 (-1074)) as P.
  assert (IZR b < IZR a) by nra. apply lt_IZR in H. assert (IZR (b + 1) <= IZR a) by (apply IZR_le; lia). rewrite plus_IZR in H0. nra.
Qed.
Lemma big_root e m : fin e -> fin m -> / 2 ^ 400 <= val e <= 2 ^ 400 -> 0 <= val m < val e -> / 2 ^ 800 <= sqrt (val e * val e - val m * val m).
Proof.
  intros Fe Fm He Hm. assert (P4 : 0 < / 2 ^ 400) by (apply Rinv_0_lt_compat, pow_lt; lra).
  pose proof (doubles_apart e m ltac:(lra)) as D.
  assert (P8 : / 2 ^ 800 * / 2 ^ 800 = / 2 ^ 1600) by (rewrite <- Rinv_mult, <- pow_add; reflexivity).
  rewrite <- (sqrt_square (/ 2 ^ 800)) by (left; apply Rinv_0_lt_compat, pow_lt; lra). apply sqrt_le_1_alt. rewrite P8.
  assert (B : bpow radix2 (-1074) = / 2 ^ 1074) by (change (-1074)%Z with (- (1074))%Z; rewrite bpow_opp, <- (IZR_Zpower radix2) by lia; rewrite pow_IZR; reflexivity). rewrite B in D.
  assert (P10 : 0 < / 2 ^ 1074) by (apply Rinv_0_lt_compat, pow_lt; lra).
  apply Rle_trans with (/ 2 ^ 1074 * / 2 ^ 400).
  - rewrite <- Rinv_mult, <- pow_add. apply Rinv_le_contravar; [apply pow_lt; lra | apply Rle_pow; [lra | lia]].
  - replace (val e * val e - val m * val m) with ((val e - val m) * (val e + val m)) by ring. apply Rmult_le_compat; lra.
Qed.
Lemma scale_low : 1000000000 * min_normal <= / 2 ^ 800.
Proof.
  destruct mn_tiny as (M & _). pose proof mn_pos. apply Rle_trans with (/ 2 ^ 1000 * 1000); [lra|].
  apply Rle_trans with (/ 2 ^ 1000 * 2 ^ 200).
  - apply Rmult_le_compat_l; [left; apply Rinv_0_lt_compat, pow_lt; lra|]. apply Rle_trans with (2 ^ 10); [simpl; lra | apply Rle_pow; [lra | lia]].
  - replace (2 ^ 1000) with (2 ^ 800 * 2 ^ 200) by (rewrite <- pow_add; reflexivity). assert (H2 : 2 ^ 200 <> 0) by (apply pow_nonzero; lra).
    rewrite Rinv_mult, Rmult_assoc, Rinv_l by exact H2. rewrite Rmult_1_r. apply Rle_refl.
Qed.
Lemma scale_range P : / 2 ^ 800 <= P <= 2 ^ 401 -> scale P.
Proof.
  intros (L & U). split; [eapply Rle_trans; [exact scale_low | exact L]|]. apply Rle_trans with (2 ^ 401); [exact U|]. apply Rle_pow; [lra | lia].
Qed.

Lemma magnitude e m : fin e -> fin m -> / 2 ^ 400 <= val e <= 2 ^ 400 -> 0 <= val m <= val e ->
  let P := sqrt (val e * val e - val m * val m) in let p := root_diff e m in
  (val m = val e -> fin p /\ val p = 0) /\ (val m < val e -> ap 6 1 P p P /\ scale P /\ 0 <= P).
Proof.
  intros Fe Fm He Hm P p. pose proof u_dec as (U0 & U1). pose proof mn_pos as MN. destruct mn_tiny as (_ & MU).
  assert (P4 : 1 <= 2 ^ 400) by (apply pow_R1_Rle; lra). assert (P4' : 0 < / 2 ^ 400) by (apply Rinv_0_lt_compat, pow_lt; lra).
  assert (HU : 2 * 2 ^ 400 <= SpecIEEE.huge). { unfold SpecIEEE.huge. change (2 * 2 ^ 400) with (2 ^ 401). apply Rle_pow; [lra | lia]. }
  destruct (C138_root_diff e m Fe Fm) as (F & Z & _ & _ & A).
  { rewrite !Rabs_pos_eq by lra. change (val e + val m <= SpecIEEE.huge). lra. }
  fold p in F, Z, A. rewrite !Rabs_pos_eq in Z by lra. split.
  - intros E. split; [exact F | apply Z; symmetry; exact E].
  - intros L. pose proof (big_root e m Fe Fm He (Logic.conj (proj1 Hm) L)) as B. fold P in B.
    assert (S : 0 <= val e * val e - val m * val m) by nra.
    assert (X : signed_root (val e * val e - val m * val m) = P). { unfold signed_root. destruct (Rlt_dec _ 0); [lra | reflexivity]. } rewrite X in A.
    assert (P0 : 0 < P). { eapply Rlt_le_trans; [|exact B]. apply Rinv_0_lt_compat, pow_lt. lra. }
    assert (PE : P <= val e). { unfold P. rewrite <- (sqrt_square (val e)) at 3 by lra. apply sqrt_le_1_alt. nra. }
    assert (SC : scale P). { apply scale_range. split; [exact B|]. change (2 ^ 401) with (2 * 2 ^ 400). lra. }
    split; [|split; [exact SC | lra]]. split; [exact F|]. split; [|rewrite Rabs_pos_eq; lra]. unfold near. rewrite (Rabs_pos_eq P) in A by lra.
    destruct SC as (SC & _). assert (u * min_normal <= u * P) by (apply Rmult_le_compat_l; lra). lra.
Qed.

Lemma two_val : val ftwo = 2 /\ fin ftwo.
Proof. destruct (lit_int 2 ltac:(lia)) as (V & F). split; [exact V | exact F]. Qed.
Lemma cosine_ok r : fin r -> 0 <= val r <= 1 -> let c := fsub fone (fmul ftwo r) in fin c /\ -1 <= val c <= 1.
Proof.
  intros F H c. destruct one_val as (V1 & F1). destruct two_val as (V2 & F2).
  assert (HB : forall x, -2 <= x <= 2 -> Rabs x <= SpecIEEE.huge). { intros x X. unfold SpecIEEE.huge. apply Rle_trans with (2 ^ 1); [simpl; apply Rabs_le; lra | apply Rle_pow; [lra | lia]]. }
  destruct (fmul_ok ftwo r F2 F) as (VM & FM & _); [apply no_overflow, HB; rewrite V2; lra|]. rewrite V2 in VM.
  assert (M : 0 <= val (fmul ftwo r) <= 2).
  { rewrite VM. split; [rewrite <- nearest_0; apply nearest_le; lra|]. rewrite <- V2 at 2. rewrite <- (nearest_id (val ftwo)) by apply val_fmt. apply nearest_le. lra. }
  unfold c. destruct (fsub_ok fone (fmul ftwo r) F1 FM) as (VS & FS & _); [apply no_overflow, HB; rewrite V1; lra|]. split; [exact FS|]. rewrite VS, V1.
  assert (N1 : nearest 1 = 1) by (rewrite <- V1; apply nearest_id, val_fmt). split.
  - replace (-1) with (- nearest 1) by lra. rewrite <- nearest_opp. apply nearest_le. lra.
  - rewrite <- N1 at 2. apply nearest_le. lra.
Qed.

(** * One row *)
Lemma row_ok arccos cexp k e m r phi p : 0 <= k <= 10 -> good_arccos arccos -> good_cexp k cexp ->
  fin e -> fin r -> fin phi -> / 2 ^ 400 <= val e <= 2 ^ 400 -> 0 <= val r <= 1 ->
  (p = e /\ m = 0 \/ exists fm, p = root_diff e fm /\ fin fm /\ 0 <= val fm <= val e /\ m = val fm) ->
  let q := f_spherical_one arccos cexp e p r phi in
  fin4 q /\ me q = e /\ Rabs (p_sq (mom4 q) - (val e * val e - m * m)) <= (11 * k + 60) * u * (val e * val e - m * m).
Proof.
  intros K GA GC Fe Fr Fphi He Hr Hp q. assert (P4' : 0 < / 2 ^ 400) by (apply Rinv_0_lt_compat, pow_lt; lra).
  destruct (cosine_ok r Fr Hr) as (FC & BC). pose proof (GA _ FC BC) as FT. unfold q, f_spherical_one. cbv zeta.
  set (theta := arccos _) in *. clearbody theta.
  assert (CASE : (fin p /\ val p = 0 /\ val e * val e - m * m = 0) \/ (exists P, ap 6 1 P p P /\ scale P /\ 0 <= P /\ P * P = val e * val e - m * m)).
  { destruct Hp as [(-> & ->)|(fm & -> & Ffm & Hfm & ->)].
    - right. exists (val e). split; [|split; [|split; [lra | ring]]].
      + apply ap_weak with 0 1; try lra. apply ap_val; [exact Fe | reflexivity | rewrite Rabs_pos_eq; lra | lra].
      + apply scale_range. split; [eapply Rle_trans; [|apply He]; apply Rinv_le_contravar; [apply pow_lt; lra | apply Rle_pow; [lra | lia]] | eapply Rle_trans; [apply He | apply Rle_pow; [lra | lia]]].
    - destruct (magnitude e fm Fe Ffm He Hfm) as (M1 & M2). destruct (Req_dec (val fm) (val e)) as [E|N].
      + left. destruct (M1 E) as (A & B). split; [exact A|]. split; [exact B|]. rewrite E. ring.
      + right. exists (sqrt (val e * val e - val fm * val fm)). destruct (M2 ltac:(lra)) as (A & B & C). split; [exact A|]. split; [exact B|]. split; [exact C|]. apply sqrt_sqrt. nra. }
  destruct CASE as [(Fp & Vp & Z)|(P & AP & SP & P0 & PP)].
  - destruct (direction0 cexp k theta phi p GC FT Fphi Fp Vp) as (F1 & F2 & F3 & V1 & V2 & V3). cbv zeta in *.
    split; [|split; [reflexivity|]].
    + split; [exact F1|]. split; [exact F2|]. split; [exact F3 | exact Fe].
    + rewrite Z. unfold p_sq, mom4, mx, my, mz, me. cbn [fst snd px py pz]. rewrite V1, V2, V3. replace (0 * 0 + 0 * 0 + 0 * 0 - 0) with 0 by ring. rewrite Rabs_R0. lra.
  - destruct (direction cexp k theta phi p P K GC FT Fphi AP SP P0) as (F1 & F2 & F3 & B). cbv zeta in *.
    split; [|split; [reflexivity|]].
    + split; [exact F1|]. split; [exact F2|]. split; [exact F3 | exact Fe].
    + rewrite <- PP. unfold p_sq, mom4, mx, my, mz, me. cbn [fst snd px py pz]. exact B.
Qed.

Lemma feq_val x y : fin x -> fin y -> feq x y = true <-> val x = val y.
Proof.
  intros Fx Fy. unfold feq. rewrite Beqb_correct by assumption. fold (val x) (val y). destruct (Req_bool_spec (val x) (val y)); split; intros; congruence.
Qed.
Lemma fle_val x y : fin x -> fin y -> fle x y = true <-> val x <= val y.
Proof.
  intros Fx Fy. unfold fle. rewrite orb_true_iff, (flt_ok x y Fx Fy), (feq_val x y Fx Fy). split; [intros [L|L]; lra | intros [L|L]; [left | right]; assumption].
Qed.

(** * C223 *)
(** Every row has the drawn energy exactly and finite components; its squared momentum is E^2 - m^2 to within 11 k + 60 units of it, where m is
    the drawn mass, or zero for a massless row. *)
Theorem C223_momenta : forall arccos cexp k massless ds, 0 <= k <= 10 -> good_arccos arccos -> good_cexp k cexp -> fin massless -> 0 <= val massless <= 1 ->
  (forall d, In d ds -> drawn d) ->
  exists l, f_from_spherical arccos cexp massless ds = Ok l /\ length l = length ds /\
  forall i p d, nth_error l i = Some p -> nth_error ds i = Some d -> fin4 p /\ me p = fd_e d /\ exists m, target massless d m /\
    let e2 := val (fd_e d) * val (fd_e d) in Rabs (p_sq (mom4 p) - (e2 - m * m)) <= (11 * k + 60) * u * (e2 - m * m).
Proof.
  intros arccos cexp k ml ds K GA GC Fm Hm HD. destruct one_val as (V1 & F1). destruct zero_ok as (F0 & V0).
  unfold f_from_spherical. rewrite (proj2 (fle_val fzero ml F0 Fm)), (proj2 (fle_val ml fone Fm F1)) by lra. cbn [negb andb].
  eexists. split; [reflexivity|]. split; [apply map_length|].
  intros i p d Hp Hd. rewrite nth_error_map', Hd in Hp. injection Hp as <-. destruct (HD d (nth_error_In _ _ Hd)) as (Fe & Fdm & Fu & Fr & Fphi & He & Hdm & Hr).
  pose proof (feq_val ml fzero Fm F0) as QZ. pose proof (flt_ok ml fone Fm F1) as QO. pose proof (flt_ok (fd_u d) ml Fu Fm) as QU. rewrite V0 in QZ. rewrite V1 in QO.
  set (pm := if feq ml fzero then _ else _).
  assert (X : exists m, target ml d m /\ (pm = fd_e d /\ m = 0 \/ exists fm, pm = root_diff (fd_e d) fm /\ fin fm /\ 0 <= val fm <= val (fd_e d) /\ m = val fm)).
  { unfold pm, target. destruct (feq ml fzero).
    - assert (Z : val ml = 0) by (apply QZ; reflexivity). exists (val (fd_m d)). split; [|right; exists (fd_m d); auto]. split; [reflexivity|]. split; [intros; lra|]. split; intros; lra.
    - assert (Z : val ml <> 0) by (intros Z; apply QZ in Z; discriminate). destruct (flt ml fone).
      + assert (O : val ml < 1) by (apply QO; reflexivity). destruct (flt (fd_u d) ml).
        * assert (U : val (fd_u d) < val ml) by (apply QU; reflexivity). exists 0. split; [|left; auto]. split; [intros; contradiction|]. split; [reflexivity|]. split; [reflexivity | intros; lra].
        * assert (U : ~ val (fd_u d) < val ml) by (intros U; apply QU in U; discriminate). exists (val (fd_m d)). split; [|right; exists (fd_m d); auto]. split; [reflexivity|]. split; [intros; lra|]. split; [intros; lra | reflexivity].
      + assert (O : ~ val ml < 1) by (intros O; apply QO in O; discriminate). exists 0. split; [|left; auto]. split; [intros; contradiction|]. split; [reflexivity|]. split; [reflexivity | intros; lra]. }
  destruct X as (m & T & Hp). destruct (row_ok arccos cexp k (fd_e d) m (fd_r d) (fd_phi d) pm K GA GC Fe Fr Fphi He Hr Hp) as (A & B & C).
  split; [exact A|]. split; [exact B|]. exists m. split; [exact T | exact C].
Qed.
(** Any other value of massless, NaN and the infinities included, is a ValueError. *)
Theorem C223_range : forall arccos cexp massless ds, ~ (fin massless /\ 0 <= val massless <= 1) -> f_from_spherical arccos cexp massless ds = Err ValueError.
Proof.
  intros arccos cexp ml ds H. destruct one_val as (V1 & F1). destruct zero_ok as (F0 & V0). unfold f_from_spherical.
  destruct (fle fzero ml && fle ml fone) eqn:E; [|reflexivity]. exfalso. apply H. apply andb_true_iff in E as (E1 & E2).
  assert (Fm : fin ml). { destruct ml as [s|s| |s mm ee B]; try reflexivity; try discriminate E1. destruct s; [discriminate E1 | discriminate E2]. }
  split; [exact Fm|]. apply (fle_val _ _ F0 Fm) in E1. apply (fle_val _ _ Fm F1) in E2. lra.
Qed.

(** * C224 *)
(** The mass the library then reports: its square (with its sign) is m^2 to within 11 k + 100 units of the squared energy. *)
Theorem C224_mass : forall hypot arccos cexp k massless ds, correct_hypot hypot -> 0 <= k <= 10 -> good_arccos arccos -> good_cexp k cexp -> fin massless -> 0 <= val massless <= 1 ->
  (forall d, In d ds -> drawn d) ->
  exists l, f_from_spherical arccos cexp massless ds = Ok l /\ length l = length ds /\
  forall i p d, nth_error l i = Some p -> nth_error ds i = Some d -> exists m, target massless d m /\
    let e2 := val (fd_e d) * val (fd_e d) in let computed := f_mass hypot (mx p) (my p) (mz p) (me p) in
    fin computed /\ Rabs (val computed * Rabs (val computed) - m * m) <= (11 * k + 100) * u * e2.
Proof.
  intros hypot arccos cexp k ml ds CH K GA GC Fm Hm HD. destruct (C223_momenta arccos cexp k ml ds K GA GC Fm Hm HD) as (l & E & L & H).
  exists l. split; [exact E|]. split; [exact L|]. intros i p d Hp Hd. destruct (H i p d Hp Hd) as ((Fx & Fy & Fz & Fe) & ME & m & T & B). cbv zeta in B.
  exists m. split; [exact T|]. cbv zeta. rewrite ME. rewrite ME in Fe. destruct (HD d (nth_error_In _ _ Hd)) as (_ & Fdm & _ & _ & _ & He & Hdm & _).
  set (e := fd_e d) in *. clearbody e. clear H E ME Hp Hd HD. pose proof u_dec as (U0 & U1). assert (P4' : 0 < / 2 ^ 400) by (apply Rinv_0_lt_compat, pow_lt; lra).
  assert (M : 0 <= m <= val e). { destruct T as (T1 & T2 & T3 & T4). destruct (Req_dec (val ml) 0) as [Z|Z]; [rewrite (T1 Z); lra|]. destruct (Req_dec (val ml) 1) as [O|O]; [rewrite (T2 O); lra|]. destruct (Rlt_dec (val (fd_u d)) (val ml)); [rewrite T3 by lra | rewrite T4 by lra]; lra. }
  assert (MD : m = 0 \/ m = val (fd_m d)). { destruct T as (T1 & T2 & T3 & T4). destruct (Req_dec (val ml) 0) as [Z|Z]; [right; apply (T1 Z)|]. destruct (Req_dec (val ml) 1) as [O|O]; [left; apply (T2 O)|]. destruct (Rlt_dec (val (fd_u d)) (val ml)); [left; apply T3 | right; apply T4]; lra. }
  unfold p_sq, mom4 in B. cbn [px py pz] in B. set (p2 := val (mx p) * val (mx p) + val (my p) * val (my p) + val (mz p) * val (mz p)) in *.
  assert (P20 : 0 <= p2) by (unfold p2; pose proof (Rle_0_sqr (val (mx p))); pose proof (Rle_0_sqr (val (my p))); pose proof (Rle_0_sqr (val (mz p))); unfold Rsqr in *; lra).
  set (e2 := val e * val e) in *. set (P2 := e2 - m * m) in *.
  assert (E20 : 0 < e2) by (apply Rmult_lt_0_compat; lra). assert (PP : 0 <= P2 <= e2) by (unfold P2, e2; nra).
  assert (CU : (11 * k + 60) * u <= / 100000) by (apply bigger_u; lra).
  destruct (Req_dec (val e) m) as [ZZ|N].
  - (* at rest *)
    assert (P2Z : P2 = 0) by (unfold P2, e2; rewrite ZZ; ring). rewrite P2Z, Rmult_0_r, Rminus_0_r, Rabs_pos_eq in B by exact P20. assert (PZ : p2 = 0) by lra.
    assert (SX : val (mx p) = 0 /\ val (my p) = 0 /\ val (mz p) = 0).
    { unfold p2 in PZ. pose proof (Rle_0_sqr (val (mx p))). pose proof (Rle_0_sqr (val (my p))). pose proof (Rle_0_sqr (val (mz p))). unfold Rsqr in *. split; [|split]; apply Rsqr_0_uniq; unfold Rsqr; lra. }
    destruct SX as (X & Y & Z).
    destruct (norm_main hypot (mx p) (my p) (mz p) CH Fx Fy Fz) as (F1 & F2 & V1 & B1 & V2 & _).
    { rewrite Z, Rabs_R0. apply pow_le. lra. } { rewrite X, Y. replace (0 * 0 + 0 * 0) with 0 by ring. rewrite sqrt_0. apply pow_le. lra. }
    assert (NZ : val (hypot (mz p) (hypot (mx p) (my p))) = 0).
    { rewrite V2. rewrite V1, X, Y, Z, Rabs_R0. replace (0 * 0 + 0 * 0) with 0 by ring. rewrite sqrt_0, nearest_0. replace (0 * 0 + 0 * 0) with 0 by ring. rewrite sqrt_0, nearest_0. reflexivity. }
    unfold f_mass. set (q := hypot (mz p) (hypot (mx p) (my p))) in *.
    assert (HU : 2 ^ 400 <= SpecIEEE.huge) by (apply Rle_pow; [lra | lia]). destruct mn_tiny as (_ & MU). pose proof mn_pos as MN.
    destruct (C138_root_diff e q Fe F2) as (F & _ & _ & _ & A). { rewrite NZ, Rabs_R0, Rabs_pos_eq by lra. change (val e + 0 <= SpecIEEE.huge). lra. }
    split; [exact F|]. rewrite NZ in A. replace (val e * val e - 0 * 0) with (val e * val e) in A by ring.
    assert (SR : signed_root (val e * val e) = val e). { unfold signed_root. destruct (Rlt_dec _ 0); [unfold e2 in E20; lra|]. apply sqrt_square. lra. }
    rewrite SR, (Rabs_pos_eq (val e)) in A by lra. set (M0 := val (root_diff e q)) in *. rewrite <- ZZ. fold e2.
    assert (SM : u * min_normal <= u * val e). { apply Rmult_le_compat_l; [lra|]. apply Rle_trans with (/ 2 ^ 800); [pose proof scale_low; lra|]. eapply Rle_trans; [|apply He]. apply Rinv_le_contravar; [apply pow_lt; lra | apply Rle_pow; [lra | lia]]. }
    assert (A6 : near 6 (val e) M0 (val e)) by (unfold near; lra).
    assert (MP : 0 <= M0). { unfold near in A6. apply Rabs_le_inv in A6. assert (6 * u * val e <= / 100 * val e) by (apply Rmult_le_compat_r; lra). lra. }
    rewrite (Rabs_pos_eq M0 MP). pose proof (square_near 6 (val e) M0 (val e) ltac:(lra) ltac:(lra) A6 ltac:(rewrite Rabs_pos_eq; lra)) as Q. fold e2 in Q. eapply Rle_trans; [exact Q|].
    apply Rmult_le_compat_r; [lra|]. apply Rmult_le_compat_r; lra.
  - assert (LM : m < val e) by lra.
    assert (PB : / 2 ^ 800 <= sqrt P2).
    { unfold P2, e2. destruct MD as [->| ->].
      - rewrite Rmult_0_l, Rminus_0_r, sqrt_square by lra. eapply Rle_trans; [|apply He]. apply Rinv_le_contravar; [apply pow_lt; lra | apply Rle_pow; [lra | lia]].
      - apply big_root; [exact Fe | exact Fdm | exact He | lra]. }
    apply Rabs_le_inv in B. assert (BU : (11 * k + 60) * u * P2 <= / 100000 * P2) by (apply Rmult_le_compat_r; lra).
    assert (R1 : / 2 * sqrt P2 <= sqrt p2).
    { replace (/ 2) with (sqrt (/ 4)) by (replace (/ 4) with (/ 2 * / 2) by lra; apply sqrt_square; lra). rewrite <- sqrt_mult by lra. apply sqrt_le_1_alt. lra. }
    assert (R2 : sqrt p2 <= 2 * val e).
    { rewrite <- (sqrt_square (2 * val e)) by lra. apply sqrt_le_1_alt. replace (2 * val e * (2 * val e)) with (4 * e2) by (unfold e2; ring). lra. }
    destruct (C151_mass hypot (mx p) (my p) (mz p) e CH Fx Fy Fz Fe) as (F & A).
    { rewrite Rabs_pos_eq by lra. eapply Rle_trans; [apply He | apply Rle_pow; [lra | lia]]. }
    { split.
      - apply Rle_trans with (/ 2 * / 2 ^ 800); [|eapply Rle_trans; [apply Rmult_le_compat_l; [lra | exact PB] | exact R1]]. rewrite <- Rinv_mult. change (2 * 2 ^ 800) with (2 ^ 801). apply Rinv_le_contravar; [apply pow_lt; lra | apply Rle_pow; [lra | lia]].
      - apply Rle_trans with (2 * 2 ^ 400); [eapply Rle_trans; [exact R2|]; apply Rmult_le_compat_l; lra | change (2 * 2 ^ 400) with (2 ^ 401); apply Rle_pow; [lra | lia]]. }
    fold p2 in A. cbv zeta in A. split; [exact F|]. set (M0 := val (f_mass hypot (mx p) (my p) (mz p) e)) in *. fold e2 in A.
    replace (M0 * Rabs M0 - m * m) with ((M0 * Rabs M0 - (e2 - p2)) + (P2 - p2)) by (unfold P2; ring). eapply Rle_trans; [apply Rabs_triang|].
    assert (P2B : p2 <= 101 / 100 * e2) by lra. assert (A1 : 16 * u * (e2 + p2) <= 16 * u * (201 / 100 * e2)) by (apply Rmult_le_compat_l; lra).
    assert (A2 : Rabs (P2 - p2) <= (11 * k + 60) * u * e2). { apply Rle_trans with ((11 * k + 60) * u * P2); [apply Rabs_le; lra|]. apply Rmult_le_compat_l; [apply Rmult_le_pos; lra | lra]. }
    assert (UE : 0 <= u * e2) by (apply Rmult_le_pos; lra). replace ((11 * k + 100) * u * e2) with ((11 * k + 60) * u * e2 + 40 * (u * e2)) by ring. lra.
Qed.

(** "Some 'massless' particles may have small, but finite masses": with massless=1 the reported mass is below a five-millionth of the energy. *)
Theorem C224_massless : forall hypot arccos cexp k massless ds, correct_hypot hypot -> 0 <= k <= 10 -> good_arccos arccos -> good_cexp k cexp -> fin massless -> val massless = 1 ->
  (forall d, In d ds -> drawn d) ->
  exists l, f_from_spherical arccos cexp massless ds = Ok l /\ length l = length ds /\
  forall i p d, nth_error l i = Some p -> nth_error ds i = Some d -> Rabs (val (f_mass hypot (mx p) (my p) (mz p) (me p))) <= val (fd_e d) / 5000000.
Proof.
  intros hypot arccos cexp k ml ds CH K GA GC Fm Hm HD. destruct (C224_mass hypot arccos cexp k ml ds CH K GA GC Fm ltac:(lra) HD) as (l & E & L & H).
  exists l. split; [exact E|]. split; [exact L|]. intros i p d Hp Hd. destruct (H i p d Hp Hd) as (m & (_ & T & _) & _ & B). rewrite (T Hm) in B. clear H.
  destruct (HD d (nth_error_In _ _ Hd)) as (_ & _ & _ & _ & _ & (He & _) & _ & _). assert (P4' : 0 < / 2 ^ 400) by (apply Rinv_0_lt_compat, pow_lt; lra). set (M0 := val (f_mass _ _ _ _ _)) in *. set (e := val (fd_e d)) in *. assert (E0 : 0 < e) by lra. clearbody M0 e.
  rewrite Rmult_0_l, Rminus_0_r, Rabs_mult, Rabs_Rabsolu in B. pose proof u_dec as (U0 & U1).
  assert (C : (11 * k + 100) * u <= / 25000000000000). { apply Rle_trans with (210 * / 9000000000000000); [apply Rmult_le_compat; lra | lra]. }
  assert (B' : Rabs M0 * Rabs M0 <= e / 5000000 * (e / 5000000)). { eapply Rle_trans; [exact B|]. replace (e / 5000000 * (e / 5000000)) with (/ 25000000000000 * (e * e)) by field. apply Rmult_le_compat_r; [left; apply Rmult_lt_0_compat; lra | exact C]. }
  apply Rsqr_incr_0_var; [exact B' | lra].
Qed.

(** * Concrete functions and numbers meet the hypotheses *)
Definition ref_cexp (z : fcomplex) : fcomplex := (ref_cos (snd z), ref_sin (snd z)).
Lemma ref_cexp_good : good_cexp 2 ref_cexp.
Proof. intros re im _ _ _. destruct (ref_trig im) as ((F1 & A1) & (F2 & A2)). unfold ref_cexp. cbn [fst snd]. split; [exact F2|]. split; [exact F1|]. split; assumption. Qed.
Definition ref_arccos (x : f64) : f64 := of_R (acos (val x)).
Lemma ref_arccos_good : good_arccos ref_arccos.
Proof.
  intros x _ H. destruct (of_R_ok (acos (val x))) as (F & _); [|exact F]. apply no_overflow. pose proof (acos_bound (val x)) as B. pose proof PI_4. unfold SpecIEEE.huge.
  apply Rle_trans with (2 ^ 2); [simpl; apply Rabs_le; lra | apply Rle_pow; [lra | lia]].
Qed.
Example C223_case : drawn (Fdraw (lit 5 0) (lit 3 0) (lit 1 (-2)) (lit 1 (-1)) (lit 1 0)) /\ good_cexp 2 ref_cexp /\ good_arccos ref_arccos /\
  target (lit 1 (-1)) (Fdraw (lit 5 0) (lit 3 0) (lit 1 (-2)) (lit 1 (-1)) (lit 1 0)) 0 /\ target (lit 1 (-1)) (Fdraw (lit 5 0) (lit 3 0) (lit 3 (-2)) (lit 1 (-1)) (lit 1 0)) 3.
Proof.
  destruct (lit_int 5 ltac:(lia)) as (V5 & F5). destruct (lit_int 3 ltac:(lia)) as (V3 & F3). destruct (lit_int 1 ltac:(lia)) as (V1 & F1).
  destruct (lit_ok 1 (-1) ltac:(lia) ltac:(lia)) as (VH & FH). destruct (lit_ok 1 (-2) ltac:(lia) ltac:(lia)) as (VQ & FQ). destruct (lit_ok 3 (-2) ltac:(lia) ltac:(lia)) as (VT & FT).
  change (bpow radix2 (-1)) with (/ 2) in VH. change (bpow radix2 (-2)) with (/ 4) in VQ, VT.
  split; [|split; [exact ref_cexp_good | split; [exact ref_arccos_good|]]].
  - unfold drawn. cbn [fd_e fd_m fd_u fd_r fd_phi]. rewrite V5, V3, VH. do 5 (split; [assumption|]). split; [|split; lra]. split.
    + apply Rle_trans with (/ 1); [apply Rinv_le_contravar; [lra | apply pow_R1_Rle; lra] | lra].
    + apply Rle_trans with (2 ^ 3); [simpl; lra | apply Rle_pow; [lra | lia]].
  - unfold target. cbn [fd_e fd_m fd_u fd_r fd_phi]. rewrite V3, VH, VQ, VT. split; (split; [intros; lra|]; split; [intros; lra|]; split; intros; lra).
Qed.
Print Assumptions C223_momenta.
Print Assumptions C223_range.
Print Assumptions C224_mass.
Print Assumptions C224_massless.
