(** The gradient of the spherocity objective in IEEE doubles (C196, C197). *)
From Coq Require Import ZArith Reals List Bool Lia Lra.
From Flocq Require Import Core BinarySingleNaN.
From Verif Require Import Prelude SpecReal SpecShapes RealBase Shapes ShapesProofs P_Shapes SpecIEEE Floats FloatBase FloatOps Floats2 P_Float P_Float4 P_Float6 Floats5 P_Float10 PiBits P_Float11 P_Float12.
Import ListNotations.
Open Scope R_scope.

(** * A double with its exact counterpart: error at most c u m, exact value at most B m *)
Definition ap (c B m : R) (x : f64) (X : R) : Prop := fin x /\ near c m (val x) X /\ Rabs X <= B * m.

Lemma u_dec : 0 < u /\ u <= / 9000000000000000.
Proof. pose proof u_tiny as [U0 _]. split; [exact U0|]. unfold u. apply Rinv_le_contravar; [lra|]. cbn. lra. Qed.
Lemma bigger_u : forall c, 0 <= c <= 9000000000 -> c * u <= / 100000.
Proof. intros c C. destruct u_dec as (U0 & U1). apply Rle_trans with (9000000000 * / 9000000000000000); [apply Rmult_le_compat; lra | lra]. Qed.
Lemma bigger_uu : forall c d, 0 <= c -> 0 <= d -> c * d <= 90000000000000 -> c * d * u <= / 100.
Proof.
  intros c d C D CD. destruct u_dec as (U0 & U1). apply Rle_trans with (90000000000000 * / 9000000000000000); [|lra].
  apply Rmult_le_compat; try lra. apply Rmult_le_pos; lra.
Qed.

Lemma ap_mul : forall E e s c d B D m n x X y Y, ap c B m x X -> ap d D n y Y -> s = m * n -> scale s -> 0 <= m -> 0 <= n ->
  0 <= c <= 100000 -> 0 <= d <= 100000 -> 0 <= B <= 32 -> 0 <= D <= 32 -> 0 <= E <= 100 -> Rabs (X * Y) <= E * s -> c * D + d * B + E + 2 / 100 <= e ->
  ap e E s (fmul x y) (X * Y).
Proof.
  intros E e s c d B D m n x X y Y (Fx & Nx & Bx) (Fy & Ny & By) -> S M0 N0 C1 C2 HB HD HE BE HE'.
  assert (CD : c * d * u <= / 100). { apply bigger_uu; try lra. apply Rle_trans with (100000 * 100000); [apply Rmult_le_compat; lra | lra]. }
  pose proof (near_mult c d m n _ _ _ _ B D ltac:(lra) ltac:(lra) CD M0 N0 ltac:(lra) ltac:(lra) Bx By Nx Ny) as N1.
  assert (CD1 : 0 <= c * D <= 3200000) by (split; [apply Rmult_le_pos; lra | apply Rle_trans with (100000 * 32); [apply Rmult_le_compat; lra | lra]]).
  assert (CD2 : 0 <= d * B <= 3200000) by (split; [apply Rmult_le_pos; lra | apply Rle_trans with (100000 * 32); [apply Rmult_le_compat; lra | lra]]).
  destruct (r_mul _ (m * n) E _ _ _ N1 Fx Fy S BE ltac:(lra) ltac:(eapply Rle_trans; [apply bigger_u; lra | lra]) ltac:(lra)) as (F & R).
  split; [exact F|]. split; [|exact BE]. assert (MN : 0 <= m * n) by (apply Rmult_le_pos; assumption). eapply near_weak; [| |split; [exact MN|apply Rle_refl] | exact R]; lra.
Qed.
Lemma ap_mul' : forall e s c d B D m n x X y Y, ap c B m x X -> ap d D n y Y -> s = m * n -> scale s -> 0 <= m -> 0 <= n ->
  0 <= c <= 100000 -> 0 <= d <= 100000 -> 0 <= B <= 10 -> 0 <= D <= 10 -> c * D + d * B + B * D + 2 / 100 <= e ->
  ap e (B * D) s (fmul x y) (X * Y).
Proof.
  intros e s c d B D m n x X y Y A1 A2 ES S M0 N0 C1 C2 HB HD HE.
  assert (BD : 0 <= B * D <= 100) by (split; [apply Rmult_le_pos; lra | apply Rle_trans with (10 * 10); [apply Rmult_le_compat; lra | lra]]).
  apply (ap_mul (B * D) e s c d B D m n x X y Y A1 A2 ES S M0 N0 C1 C2); try lra.
  destruct A1 as (_ & _ & B1). destruct A2 as (_ & _ & B2). rewrite Rabs_mult, ES. replace (B * D * (m * n)) with (B * m * (D * n)) by ring.
  apply Rmult_le_compat; try apply Rabs_pos; assumption.
Qed.
Lemma ap_add : forall E e c d B D m x X y Y, ap c B m x X -> ap d D m y Y -> scale m -> 0 <= c <= 100000 -> 0 <= d <= 100000 -> 0 <= E <= 100 -> Rabs (X + Y) <= E * m -> c + d + E + 1 / 100 <= e ->
  ap e E m (fadd x y) (X + Y).
Proof.
  intros E e c d B D m x X y Y (Fx & Nx & Bx) (Fy & Ny & By) S C1 C2 HE BE HE'. pose proof (near_add _ _ _ _ _ _ _ Nx Ny) as N1.
  destruct (r_add _ m E _ _ _ N1 Fx Fy S BE ltac:(lra) ltac:(eapply Rle_trans; [apply bigger_u; lra | lra]) ltac:(lra)) as (F & R).
  split; [exact F|]. split; [|exact BE]. pose proof mn_pos. destruct S as (S & _). assert (M0 : 0 <= m) by lra. eapply near_weak; [| |split; [exact M0|apply Rle_refl] | exact R]; lra.
Qed.
Lemma ap_sub : forall E e c d B D m x X y Y, ap c B m x X -> ap d D m y Y -> scale m -> 0 <= c <= 100000 -> 0 <= d <= 100000 -> 0 <= E <= 100 -> Rabs (X - Y) <= E * m -> c + d + E + 1 / 100 <= e ->
  ap e E m (fsub x y) (X - Y).
Proof.
  intros E e c d B D m x X y Y (Fx & Nx & Bx) (Fy & Ny & By) S C1 C2 HE BE HE'. pose proof (near_sub _ _ _ _ _ _ _ Nx Ny) as N1.
  destruct (r_sub _ m E _ _ _ N1 Fx Fy S BE ltac:(lra) ltac:(eapply Rle_trans; [apply bigger_u; lra | lra]) ltac:(lra)) as (F & R).
  split; [exact F|]. split; [|exact BE]. pose proof mn_pos. destruct S as (S & _). assert (M0 : 0 <= m) by lra. eapply near_weak; [| |split; [exact M0|apply Rle_refl] | exact R]; lra.
Qed.
Lemma ap_add' : forall e c d B D m x X y Y, ap c B m x X -> ap d D m y Y -> scale m -> 0 <= c <= 100000 -> 0 <= d <= 100000 -> 0 <= B <= 10 -> 0 <= D <= 10 -> c + d + (B + D) + 1 / 100 <= e ->
  ap e (B + D) m (fadd x y) (X + Y).
Proof.
  intros e c d B D m x X y Y A1 A2 S C1 C2 HB HD HE. apply (ap_add (B + D) e c d B D m x X y Y A1 A2 S C1 C2); try lra.
  destruct A1 as (_ & _ & B1). destruct A2 as (_ & _ & B2). eapply Rle_trans; [apply Rabs_triang|]. lra.
Qed.
Lemma ap_sub' : forall e c d B D m x X y Y, ap c B m x X -> ap d D m y Y -> scale m -> 0 <= c <= 100000 -> 0 <= d <= 100000 -> 0 <= B <= 10 -> 0 <= D <= 10 -> c + d + (B + D) + 1 / 100 <= e ->
  ap e (B + D) m (fsub x y) (X - Y).
Proof.
  intros e c d B D m x X y Y A1 A2 S C1 C2 HB HD HE. apply (ap_sub (B + D) e c d B D m x X y Y A1 A2 S C1 C2); try lra.
  destruct A1 as (_ & _ & B1). destruct A2 as (_ & _ & B2). unfold Rminus. eapply Rle_trans; [apply Rabs_triang|]. rewrite Rabs_Ropp. lra.
Qed.
Lemma ap_weak : forall c B d D m x X, ap c B m x X -> c <= d -> B <= D -> 0 <= c -> 0 <= m -> ap d D m x X.
Proof.
  intros c B d D m x X (F & N & H) Cd BD C0 M. split; [exact F|]. split; [eapply near_weak; [exact Cd | exact C0 | | exact N]; lra|].
  eapply Rle_trans; [exact H|]. apply Rmult_le_compat_r; lra.
Qed.
Lemma ap_val : forall B m x X, fin x -> val x = X -> Rabs X <= B * m -> 0 <= m -> ap 0 B m x X.
Proof. intros B m x X F <- H M. split; [exact F|]. split; [apply near_exact; exact M | exact H]. Qed.

(** * One particle's terms *)
Section Terms.
  Context (k : R) (K : 0 <= k <= 10) (cp sp ct st : f64) (a i : R).
  Context (Hst : fin st) (Nst : near k 1 (val st) (sin i)) (Hct : fin ct) (Nct : near k 1 (val ct) (cos i))
          (Hsp : fin sp) (Nsp : near k 1 (val sp) (sin a)) (Hcp : fin cp) (Ncp : near k 1 (val cp) (cos a)).

  Let two : ap 0 2 1 ftwo 2.
  Proof. destruct (lit_int 2 ltac:(lia)) as (V & F). apply ap_val; [exact F | exact V | rewrite Rabs_pos_eq; lra | lra]. Qed.
  Let mtwo : ap 0 2 1 (fneg ftwo) (-2).
  Proof. destruct (lit_int 2 ltac:(lia)) as (V & F). apply ap_val; [apply fneg_fin; exact F | rewrite fneg_ok; unfold ftwo; rewrite V; lra | rewrite Rabs_left; lra | lra]. Qed.
  Let one : ap 0 1 1 fone 1.
  Proof. destruct one_val as (V & F). apply ap_val; [exact F | exact V | rewrite Rabs_pos_eq; lra | lra]. Qed.
  Let half : ap 0 (/ 2) 1 fhalf (/ 2).
  Proof. destruct (lit_ok 1 (-1) ltac:(lia) ltac:(lia)) as (V & F). apply ap_val; [exact F | unfold fhalf; rewrite V; cbn; lra | rewrite Rabs_pos_eq; lra | lra]. Qed.

  Lemma two_angle : forall c s t, fin c -> near k 1 (val c) (cos t) -> fin s -> near k 1 (val s) (sin t) ->
    ap (4 * k + 7) 1 1 (fsub (fmul (fmul ftwo c) c) fone) (2 * cos t * cos t - 1) /\ ap (4 * k + 4) 1 1 (fmul (fmul ftwo c) s) (2 * cos t * sin t).
  Proof.
    intros c s t Fc Nc Fs Ns. pose proof scale_1 as S1.
    assert (Ac : ap k 1 1 c (cos t)) by (split; [exact Fc|]; split; [exact Nc|]; rewrite Rmult_1_l; apply cos_abs).
    assert (As : ap k 1 1 s (sin t)) by (split; [exact Fs|]; split; [exact Ns|]; rewrite Rmult_1_l; apply sin_abs).
    pose proof (ap_mul' (2 * k + 202 / 100) 1 _ _ _ _ _ _ _ _ _ _ two Ac ltac:(lra) S1 ltac:(lra) ltac:(lra) ltac:(lra) ltac:(lra) ltac:(lra) ltac:(lra) ltac:(lra)) as A2.
    pose proof (ap_mul' (4 * k + 5) 1 _ _ _ _ _ _ _ _ _ _ A2 Ac ltac:(lra) S1 ltac:(lra) ltac:(lra) ltac:(lra) ltac:(lra) ltac:(lra) ltac:(lra) ltac:(lra)) as A3.
    pose proof (sin2_cos2 t) as SC. unfold Rsqr in SC. pose proof (Rle_0_sqr (cos t)) as q1. pose proof (Rle_0_sqr (sin t)) as q2. unfold Rsqr in q1, q2.
    split.
    - apply (ap_sub 1 _ _ _ _ _ _ _ _ _ _ A3 one S1); try lra. apply Rabs_le. lra.
    - apply (ap_mul 1 _ 1 _ _ _ _ _ _ _ _ _ _ A2 As ltac:(lra) S1); try lra. apply Rabs_le.
      pose proof (Rle_0_sqr (cos t - sin t)) as q3. pose proof (Rle_0_sqr (cos t + sin t)) as q4. unfold Rsqr in q3, q4. lra.
  Qed.

  Definition f_phi_num (p : rec3) : f64 :=
    let cos_2phi := fsub (fmul (fmul ftwo cp) cp) fone in
    let sin_2phi := fmul (fmul ftwo cp) sp in
    let cos_2theta := fsub (fmul (fmul ftwo ct) ct) fone in
    let sin_2theta := fmul (fmul ftwo ct) st in
    let x := rx p in let y := ry p in let z := rz p in
    let x_sq := fmul x x in let y_sq := fmul y y in
    fsub (fmul (fmul fhalf (fsub cos_2theta fone)) (fsub (fmul (fmul (fmul ftwo x) y) cos_2phi) (fmul (fsub x_sq y_sq) sin_2phi)))
         (fmul sin_2theta (fsub (fmul (fmul y z) cp) (fmul (fmul x z) sp))).
  Definition f_theta_num (p : rec3) : f64 :=
    let cos_2phi := fsub (fmul (fmul ftwo cp) cp) fone in
    let sin_2phi := fmul (fmul ftwo cp) sp in
    let cos_2theta := fsub (fmul (fmul ftwo ct) ct) fone in
    let sin_2theta := fmul (fmul ftwo ct) st in
    let x := rx p in let y := ry p in let z := rz p in
    let x_sq := fmul x x in let y_sq := fmul y y in
    fsub (fmul (fmul (fneg ftwo) cos_2theta) (fadd (fmul (fmul x y) cp) (fmul (fmul y z) sp)))
         (fmul (fmul fhalf sin_2theta)
            (fadd (fsub (fadd (fadd x_sq y_sq) (fmul (fsub x_sq y_sq) cos_2phi)) (fmul (fmul ftwo z) z))
                  (fmul (fmul (fmul ftwo x) y) sin_2phi))).
  Definition phi_num (q : mom) : R :=
    let x := px q in let y := py q in let z := pz q in
    / 2 * (2 * cos i * cos i - 1 - 1) * (2 * x * y * (2 * cos a * cos a - 1) - (x * x - y * y) * (2 * cos a * sin a)) - 2 * cos i * sin i * (y * z * cos a - x * z * sin a).
  Definition theta_num (q : mom) : R :=
    let x := px q in let y := py q in let z := pz q in
    -2 * (2 * cos i * cos i - 1) * (x * y * cos a + y * z * sin a)
        - / 2 * (2 * cos i * sin i) * (x * x + y * y + (x * x - y * y) * (2 * cos a * cos a - 1) - 2 * z * z + 2 * x * y * (2 * cos a * sin a)).

  Ltac side := first [lra | assumption | ring].
  Lemma nums_ok : forall p, moderate p -> let m := nrm p in
    ap (34 * k + 111) 7 (m * m) (f_phi_num p) (phi_num (mom_of p)) /\ ap (34 * k + 111) 7 (m * m) (f_theta_num p) (theta_num (mom_of p)).
  Proof.
    intros p Mp m. pose proof scale_1 as S1. pose proof (mod_scale p Mp) as Sm. destruct (mod_pos p Mp) as (N0 & _). destruct (scale_prod p p Mp Mp) as (_ & S2 & _). cbv zeta in S2. fold m in Sm, N0, S2.
    destruct (comp_le (mom_of p)) as (B1 & B2 & B3). cbn [mom_of px py pz] in B1, B2, B3. fold (rx p) in B1. fold (ry p) in B2. fold (rz p) in B3. fold m in B1, B2, B3.
    pose proof Mp as ((Fx & Fy & Fz) & _ & _).
    assert (EM : m * m = val (rx p) * val (rx p) + val (ry p) * val (ry p) + val (rz p) * val (rz p)).
    { unfold m, norm3. rewrite sqrt_sqrt; [reflexivity|]. unfold p_sq, mom_of. cbn [px py pz]. pose proof (Rle_0_sqr (val (fst (fst p)))). pose proof (Rle_0_sqr (val (snd (fst p)))). pose proof (Rle_0_sqr (val (snd p))). unfold Rsqr in *. lra. }
    destruct (two_angle cp sp a Hcp Ncp Hsp Nsp) as (C2p & S2p). destruct (two_angle ct st i Hct Nct Hst Nst) as (C2t & S2t).
    assert (Acp : ap k 1 1 cp (cos a)) by (split; [exact Hcp|]; split; [exact Ncp|]; rewrite Rmult_1_l; apply cos_abs).
    assert (Asp : ap k 1 1 sp (sin a)) by (split; [exact Hsp|]; split; [exact Nsp|]; rewrite Rmult_1_l; apply sin_abs).
    unfold f_phi_num, f_theta_num, phi_num, theta_num. cbv zeta. cbn [mom_of px py pz]. fold (rx p) (ry p) (rz p).
    set (fx := rx p) in *. set (fy := ry p) in *. set (fz := rz p) in *. set (x := val fx) in *. set (y := val fy) in *. set (z := val fz) in *.
    assert (Ax : ap 0 1 m fx x) by (apply ap_val; [exact Fx | reflexivity | lra | lra]).
    assert (Ay : ap 0 1 m fy y) by (apply ap_val; [exact Fy | reflexivity | lra | lra]).
    assert (Az : ap 0 1 m fz z) by (apply ap_val; [exact Fz | reflexivity | lra | lra]).
    pose proof (Rle_0_sqr x) as qx. pose proof (Rle_0_sqr y) as qy. pose proof (Rle_0_sqr z) as qz. unfold Rsqr in qx, qy, qz.
    pose proof (Rle_0_sqr (x - y)) as qm. pose proof (Rle_0_sqr (x + y)) as qp. unfold Rsqr in qm, qp.
    assert (MM : 0 <= m * m) by (apply Rmult_le_pos; lra).
    (* squares and products of two components *)
    assert (Axx : ap 2 1 (m * m) (fmul fx fx) (x * x)) by (eapply ap_weak; [eapply (ap_mul' 2); [exact Ax | exact Ax | ..]|..]; side).
    assert (Ayy : ap 2 1 (m * m) (fmul fy fy) (y * y)) by (eapply ap_weak; [eapply (ap_mul' 2); [exact Ay | exact Ay | ..]|..]; side).
    assert (Axy : ap 2 1 (m * m) (fmul fx fy) (x * y)) by (eapply ap_weak; [eapply (ap_mul' 2); [exact Ax | exact Ay | ..]|..]; side).
    assert (Ayz : ap 2 1 (m * m) (fmul fy fz) (y * z)) by (eapply ap_weak; [eapply (ap_mul' 2); [exact Ay | exact Az | ..]|..]; side).
    assert (Axz : ap 2 1 (m * m) (fmul fx fz) (x * z)) by (eapply ap_weak; [eapply (ap_mul' 2); [exact Ax | exact Az | ..]|..]; side).
    assert (A2x : ap (202 / 100) 2 m (fmul ftwo fx) (2 * x)) by (eapply ap_weak; [eapply (ap_mul' (202 / 100) m); [exact two | exact Ax | ..]|..]; side).
    assert (A2z : ap (202 / 100) 2 m (fmul ftwo fz) (2 * z)) by (eapply ap_weak; [eapply (ap_mul' (202 / 100) m); [exact two | exact Az | ..]|..]; side).
    assert (A2xy : ap 4 1 (m * m) (fmul (fmul ftwo fx) fy) (2 * x * y)) by (eapply (ap_mul 1 4 (m * m)); [exact A2x | exact Ay | ..]; try side; apply Rabs_le; lra).
    assert (A2zz : ap 5 2 (m * m) (fmul (fmul ftwo fz) fz) (2 * z * z)) by (eapply ap_weak; [eapply (ap_mul' 5); [exact A2z | exact Az | ..]|..]; side).
    assert (Ad : ap 6 1 (m * m) (fsub (fmul fx fx) (fmul fy fy)) (x * x - y * y)) by (eapply (ap_sub 1 6); [exact Axx | exact Ayy | ..]; try side; apply Rabs_le; lra).
    assert (As : ap 6 1 (m * m) (fadd (fmul fx fx) (fmul fy fy)) (x * x + y * y)) by (eapply (ap_add 1 6); [exact Axx | exact Ayy | ..]; try side; apply Rabs_le; lra).
    split.
    - assert (T1 : ap (4 * k + 10) 2 1 (fsub (fsub (fmul (fmul ftwo ct) ct) fone) fone) (2 * cos i * cos i - 1 - 1)) by (eapply ap_weak; [eapply (ap_sub' (4 * k + 10)); [exact C2t | exact one | ..]|..]; side).
      assert (T2 : ap (2 * k + 7) 1 1 (fmul fhalf (fsub (fsub (fmul (fmul ftwo ct) ct) fone) fone)) (/ 2 * (2 * cos i * cos i - 1 - 1))) by (eapply ap_weak; [eapply (ap_mul' (2 * k + 7) 1); [exact half | exact T1 | ..]|..]; side).
      pose proof (ap_mul' (4 * k + 13) (m * m) _ _ _ _ _ _ _ _ _ _ A2xy C2p ltac:(ring) S2 MM ltac:(lra) ltac:(lra) ltac:(lra) ltac:(lra) ltac:(lra) ltac:(lra)) as T3.
      pose proof (ap_mul' (4 * k + 12) (m * m) _ _ _ _ _ _ _ _ _ _ Ad S2p ltac:(ring) S2 MM ltac:(lra) ltac:(lra) ltac:(lra) ltac:(lra) ltac:(lra) ltac:(lra)) as T4.
      pose proof (ap_sub' (8 * k + 28) _ _ _ _ _ _ _ _ _ T3 T4 S2 ltac:(lra) ltac:(lra) ltac:(lra) ltac:(lra) ltac:(lra)) as T5.
      pose proof (ap_mul' (12 * k + 45) (m * m) _ _ _ _ _ _ _ _ _ _ T2 T5 ltac:(ring) S2 ltac:(lra) MM ltac:(lra) ltac:(lra) ltac:(lra) ltac:(lra) ltac:(lra)) as T6.
      pose proof (ap_mul' (k + 4) (m * m) _ _ _ _ _ _ _ _ _ _ Ayz Acp ltac:(ring) S2 MM ltac:(lra) ltac:(lra) ltac:(lra) ltac:(lra) ltac:(lra) ltac:(lra)) as T7.
      pose proof (ap_mul' (k + 4) (m * m) _ _ _ _ _ _ _ _ _ _ Axz Asp ltac:(ring) S2 MM ltac:(lra) ltac:(lra) ltac:(lra) ltac:(lra) ltac:(lra) ltac:(lra)) as T8.
      pose proof (ap_sub' (2 * k + 11) _ _ _ _ _ _ _ _ _ T7 T8 S2 ltac:(lra) ltac:(lra) ltac:(lra) ltac:(lra) ltac:(lra)) as T9.
      pose proof (ap_mul' (10 * k + 22) (m * m) _ _ _ _ _ _ _ _ _ _ S2t T9 ltac:(ring) S2 ltac:(lra) MM ltac:(lra) ltac:(lra) ltac:(lra) ltac:(lra) ltac:(lra)) as T10.
      pose proof (ap_sub' (22 * k + 72) _ _ _ _ _ _ _ _ _ T6 T10 S2 ltac:(lra) ltac:(lra) ltac:(lra) ltac:(lra) ltac:(lra)) as T11.
      eapply ap_weak; [exact T11 | ..]; lra.
    - pose proof (ap_mul' (8 * k + 17) 1 _ _ _ _ _ _ _ _ _ _ mtwo C2t ltac:(ring) S1 ltac:(lra) ltac:(lra) ltac:(lra) ltac:(lra) ltac:(lra) ltac:(lra) ltac:(lra)) as T1.
      pose proof (ap_mul' (k + 4) (m * m) _ _ _ _ _ _ _ _ _ _ Axy Acp ltac:(ring) S2 MM ltac:(lra) ltac:(lra) ltac:(lra) ltac:(lra) ltac:(lra) ltac:(lra)) as T2.
      pose proof (ap_mul' (k + 4) (m * m) _ _ _ _ _ _ _ _ _ _ Ayz Asp ltac:(ring) S2 MM ltac:(lra) ltac:(lra) ltac:(lra) ltac:(lra) ltac:(lra) ltac:(lra)) as T3.
      pose proof (ap_add' (2 * k + 11) _ _ _ _ _ _ _ _ _ T2 T3 S2 ltac:(lra) ltac:(lra) ltac:(lra) ltac:(lra) ltac:(lra)) as T4.
      pose proof (ap_mul' (20 * k + 61) (m * m) _ _ _ _ _ _ _ _ _ _ T1 T4 ltac:(ring) S2 ltac:(lra) MM ltac:(lra) ltac:(lra) ltac:(lra) ltac:(lra) ltac:(lra)) as T5.
      pose proof (ap_mul' (2 * k + 3) 1 _ _ _ _ _ _ _ _ _ _ half S2t ltac:(ring) S1 ltac:(lra) ltac:(lra) ltac:(lra) ltac:(lra) ltac:(lra) ltac:(lra) ltac:(lra)) as T6.
      pose proof (ap_mul' (4 * k + 15) (m * m) _ _ _ _ _ _ _ _ _ _ Ad C2p ltac:(ring) S2 MM ltac:(lra) ltac:(lra) ltac:(lra) ltac:(lra) ltac:(lra) ltac:(lra)) as T7.
      pose proof (ap_add' (4 * k + 24) _ _ _ _ _ _ _ _ _ As T7 S2 ltac:(lra) ltac:(lra) ltac:(lra) ltac:(lra) ltac:(lra)) as T8.
      pose proof (ap_sub' (4 * k + 34) _ _ _ _ _ _ _ _ _ T8 A2zz S2 ltac:(lra) ltac:(lra) ltac:(lra) ltac:(lra) ltac:(lra)) as T9.
      pose proof (ap_mul' (4 * k + 10) (m * m) _ _ _ _ _ _ _ _ _ _ A2xy S2p ltac:(ring) S2 MM ltac:(lra) ltac:(lra) ltac:(lra) ltac:(lra) ltac:(lra) ltac:(lra)) as T10.
      pose proof (ap_add' (8 * k + 50) _ _ _ _ _ _ _ _ _ T9 T10 S2 ltac:(lra) ltac:(lra) ltac:(lra) ltac:(lra) ltac:(lra)) as T11.
      pose proof (ap_mul' (14 * k + 43) (m * m) _ _ _ _ _ _ _ _ _ _ T6 T11 ltac:(ring) S2 ltac:(lra) MM ltac:(lra) ltac:(lra) ltac:(lra) ltac:(lra) ltac:(lra)) as T12.
      pose proof (ap_sub' (34 * k + 111) _ _ _ _ _ _ _ _ _ T5 T12 S2 ltac:(lra) ltac:(lra) ltac:(lra) ltac:(lra) ltac:(lra)) as T13.
      eapply ap_weak; [exact T13 | ..]; lra.
  Qed.

  (** the reciprocal of |p x n|, for a particle at an angle of sine at least delta from the axis *)
  Context (delta : R) (D : / 8192 <= delta <= 1).
  Definition apart (p : rec3) : Prop := delta * nrm p <= cross_len (mom_of p) (unit_axis a i).

  Lemma apart_off : forall p, moderate p -> apart p -> (20 * k + 40) * u * nrm p <= cross_len (mom_of p) (unit_axis a i).
  Proof.
    intros p Mp H. destruct (mod_pos p Mp) as (N0 & _). eapply Rle_trans; [|exact H]. apply Rmult_le_compat_r; [lra|].
    eapply Rle_trans; [apply bigger_u; lra | lra].
  Qed.

  Lemma inv_delta : 1 <= / delta <= 8192.
  Proof. split; [rewrite <- Rinv_1; apply Rinv_le_contravar; lra | rewrite <- (Rinv_inv 8192); apply Rinv_le_contravar; lra]. Qed.

  Lemma recip_ok : forall p c, moderate p -> apart p -> fin c -> near (7 * k + 19) (nrm p) (val c) (cross_len (mom_of p) (unit_axis a i)) -> 0 < val c ->
    fin (fdiv fone c) /\ near ((8 * k + 21) * / delta) (/ delta * / nrm p) (val (fdiv fone c)) (/ cross_len (mom_of p) (unit_axis a i)) /\
    0 <= / cross_len (mom_of p) (unit_axis a i) <= / delta * / nrm p.
  Proof.
    intros p c Mp AP Fc Nc C0. destruct (mod_pos p Mp) as (N0 & _). pose proof Mp as (_ & L & U). unfold apart in AP. pose proof (cross_le (mom_of p) a i) as CU.
    set (m := nrm p) in *. set (C := cross_len (mom_of p) (unit_axis a i)) in *. pose proof inv_delta as ID. set (w := / delta) in *.
    assert (DM : 0 < delta * m) by (apply Rmult_lt_0_compat; lra). assert (CP : 0 < C) by lra.
    assert (IC : / C <= w * / m). { unfold w. rewrite <- Rinv_mult. apply Rinv_le_contravar; assumption. }
    assert (I0 : 0 < / C) by (apply Rinv_0_lt_compat; exact CP).
    assert (MC : m <= w * C). { unfold w. apply Rmult_le_reg_l with delta; [lra|]. rewrite <- Rmult_assoc, Rinv_r by lra. lra. }
    set (e := (7 * k + 19) * w). assert (Ee : 0 <= e <= 729088). { unfold e. split; [apply Rmult_le_pos; lra | apply Rle_trans with (89 * 8192); [apply Rmult_le_compat; lra | lra]]. }
    assert (N1 : near e C (val c) C).
    { unfold near in *. eapply Rle_trans; [exact Nc|]. unfold e. replace ((7 * k + 19) * w * u * C) with ((7 * k + 19) * u * (w * C)) by ring. pose proof u_tiny as [U0 U1].
      apply Rmult_le_compat_l; [apply Rmult_le_pos; lra | exact MC]. }
    destruct one_val as (V1 & F1).
    pose proof (near_div 0 e C (/ C) (val fone) 1 (val c) 1 ltac:(lra) ltac:(lra) ltac:(eapply Rle_trans; [apply bigger_u; lra | lra]) CP ltac:(lra) ltac:(lra)
                  ltac:(rewrite Rinv_r by lra; rewrite Rabs_pos_eq; lra) ltac:(rewrite Rinv_r, V1 by lra; apply near_exact; lra) N1) as Z0.
    replace (1 / C) with (/ C) in Z0 by (unfold Rdiv; ring).
    assert (SC : scale (/ C)).
    { apply scale_pow. split.
      - apply Rinv_le_contravar; [exact CP|]. apply Rle_trans with (2 ^ 240); [lra | apply Rle_pow; [lra | lia]].
      - apply Rle_trans with (w * / m); [exact IC|]. apply Rle_trans with (2 ^ 13 * 2 ^ 240).
        + apply Rmult_le_compat; [lra | left; apply Rinv_0_lt_compat; lra | cbn; lra |]. rewrite <- (Rinv_inv (2 ^ 240)). apply Rinv_le_contravar; [apply ipow2_pos | exact L].
        + rewrite <- pow_add. apply Rle_pow; [lra | lia]. }
    destruct (r_div _ (/ C) 1 _ _ _ Z0 F1 Fc SC ltac:(rewrite Rabs_pos_eq; lra) ltac:(lra) ltac:(lra) ltac:(eapply Rle_trans; [apply bigger_u; lra | lra]) ltac:(lra)) as (F & R).
    split; [exact F|]. split; [|lra]. eapply near_weak; [| | |exact R]; [|lra|lra].
    unfold e. assert (k0 : 0 <= k * w) by (apply Rmult_le_pos; lra). lra.
  Qed.

  (** a term of the sums: reciprocal times numerator *)
  Lemma term_ok : forall p c num X, moderate p -> apart p -> fin c -> near (7 * k + 19) (nrm p) (val c) (cross_len (mom_of p) (unit_axis a i)) -> 0 < val c ->
    ap (34 * k + 111) 7 (nrm p * nrm p) num X ->
    ap ((90 * k + 266) * / delta) 7 (/ delta * nrm p) (fmul (fdiv fone c) num) (/ cross_len (mom_of p) (unit_axis a i) * X).
  Proof.
    intros p c num X Mp AP Fc Nc C0 (Fn & Nn & Bn). destruct (recip_ok p c Mp AP Fc Nc C0) as (Fr & Nr & Br). destruct (mod_pos p Mp) as (N0 & _). pose proof Mp as (_ & L & U). pose proof (mod_scale p Mp) as (SL & SU).
    set (m := nrm p) in *. set (C := cross_len (mom_of p) (unit_axis a i)) in *. pose proof inv_delta as ID. set (w := / delta) in *.
    assert (IM : 0 < / m) by (apply Rinv_0_lt_compat; lra).
    assert (E : w * / m * (m * m) = w * m) by (field; lra).
    set (e := (8 * k + 21) * w) in *. assert (Ee : 0 <= e <= 827392). { unfold e. split; [apply Rmult_le_pos; lra | apply Rle_trans with (101 * 8192); [apply Rmult_le_compat; lra | lra]]. }
    assert (CD : e * (34 * k + 111) * u <= / 100). { apply bigger_uu; try lra. apply Rle_trans with (827392 * 451); [apply Rmult_le_compat; lra | lra]. }
    pose proof (near_mult e (34 * k + 111) (w * / m) (m * m) _ (/ C) _ X 1 7 ltac:(lra) ltac:(lra) CD ltac:(apply Rmult_le_pos; lra) ltac:(apply Rmult_le_pos; lra) ltac:(lra) ltac:(lra) ltac:(rewrite Rabs_pos_eq; lra) Bn Nr Nn) as N1.
    rewrite E in N1. assert (B7 : Rabs (/ C * X) <= 7 * (w * m)).
    { rewrite Rabs_mult, <- E. replace (7 * (w * / m * (m * m))) with (w * / m * (7 * (m * m))) by ring. apply Rmult_le_compat; try apply Rabs_pos; [rewrite Rabs_pos_eq; lra | exact Bn]. }
    assert (WM : m <= w * m <= 8192 * m). { split; [rewrite <- (Rmult_1_l m) at 1|]; apply Rmult_le_compat_r; lra. }
    assert (SC : scale (w * m)). { split; [lra|]. apply Rle_trans with (2 ^ 13 * 2 ^ 240); [apply Rle_trans with (8192 * m); [lra | apply Rmult_le_compat; try lra; cbn; lra] | rewrite <- pow_add; apply Rle_pow; [lra | lia]]. }
    destruct (r_mul _ (w * m) 7 _ _ _ N1 Fr Fn SC B7 ltac:(lra) ltac:(eapply Rle_trans; [apply bigger_u; lra | lra]) ltac:(lra)) as (F & R).
    split; [exact F|]. split; [|exact B7]. assert (M0 : 0 <= w * m) by lra. eapply near_weak; [| |split; [exact M0 | apply Rle_refl]|exact R]; [|lra].
    unfold e. assert (k0 : k * 1 <= k * w) by (apply Rmult_le_compat_l; lra). lra.
  Qed.

  (** running sums of such terms *)
  Definition tsum (d : f64) (o W : R) (j : nat) : Prop := fin d /\ near ((90 * k + 266) * / delta + 8 * INR j) W (val d) o /\ Rabs o <= 7 * W /\ 0 <= W <= INR j * 2 ^ 253.
  Lemma tsum_step : forall d o W j p t t', tsum d o W j -> moderate p -> ap ((90 * k + 266) * / delta) 7 (/ delta * nrm p) t t' -> INR j <= 524288 ->
    tsum (fadd d t) (o + t') (W + / delta * nrm p) (S j).
  Proof.
    intros d o W j p t t' (F & H & BO & UW) Mp (Ft & Nt & Bt) J. pose proof (pow2_pos 240) as P. pose proof (pos_INR j). pose proof inv_delta as ID. set (w := / delta) in *.
    pose proof (mod_scale p Mp) as (SL & _). destruct Mp as (_ & L & U). pose proof (ipow2_pos 240). set (m := nrm p) in *.
    assert (WM : m <= w * m <= 8192 * m). { split; [rewrite <- (Rmult_1_l m) at 1|]; apply Rmult_le_compat_r; lra. }
    assert (P253 : 8192 * 2 ^ 240 = 2 ^ 253). { change 253%nat with (13 + 240)%nat. rewrite pow_add. f_equal. cbn. lra. }
    assert (UP : W + w * m <= INR (S j) * 2 ^ 253). { rewrite S_INR. lra. }
    assert (SC : scale (W + w * m)).
    { split; [lra|]. eapply Rle_trans; [exact UP|]. rewrite S_INR. apply Rle_trans with (2 ^ 20 * 2 ^ 253); [apply Rmult_le_compat_r; [rewrite <- P253; lra | cbn [pow]; lra]|]. rewrite <- pow_add. apply Rle_pow; [lra | lia]. }
    set (e := (90 * k + 266) * w) in *. assert (Ee : 0 <= e <= 9551872). { unfold e. split; [apply Rmult_le_pos; lra | apply Rle_trans with (1166 * 8192); [apply Rmult_le_compat; lra | lra]]. }
    pose proof (near_acc _ _ _ _ _ _ _ _ H Nt ltac:(lra) ltac:(lra)) as NA.
    assert (AX : Rabs (o + t') <= 7 * (W + w * m)) by (eapply Rle_trans; [apply Rabs_triang|]; lra).
    destruct (r_add _ (W + w * m) 7 _ _ _ NA F Ft SC AX ltac:(lra) ltac:(eapply Rle_trans; [apply bigger_u; lra | lra]) ltac:(lra)) as (F1 & R1).
    split; [exact F1|]. split; [|split; [exact AX | lra]]. assert (M0 : 0 <= W + w * m) by lra. eapply near_weak; [| |split; [exact M0 | apply Rle_refl]|exact R1]; [rewrite S_INR; fold w; fold e; lra | lra].
  Qed.

  Lemma gradfold_ok : forall l s og ot W j, Forall moderate l -> Forall apart l -> tsum (fs_phi s) og W j -> tsum (fs_theta s) ot W j -> INR (j + length l) <= 524288 ->
    exists s', ofold (f_spherocity_step cp sp ct st) l s = Some s' /\
      tsum (fs_phi s') (og + rsum (map (sph_phi a i) (map mom_of l))) (W + / delta * total_norm (map mom_of l)) (j + length l) /\
      tsum (fs_theta s') (ot + rsum (map (sph_theta a i) (map mom_of l))) (W + / delta * total_norm (map mom_of l)) (j + length l).
  Proof.
    induction l as [|p l IH]; intros s og ot W j Ml Al A B J.
    - exists s. unfold total_norm. cbn [ofold map rsum length]. rewrite Nat.add_0_r, Rmult_0_r, !Rplus_0_r. auto.
    - inversion Ml as [|? ? Mp Ml']; subst. inversion Al as [|? ? Ap Al']; subst. destruct (norm_ok p Mp) as (r & E & Fr & Nr).
      destruct (cross_ok k ltac:(lra) cp sp ct st a i Hst Nst Hct Nct Hsp Nsp Hcp Ncp p Mp (apart_off p Mp Ap)) as (c & EC & Fc & Nc & C0).
      assert (J1 : INR j <= 524288) by (eapply Rle_trans; [apply le_INR | exact J]; lia).
      destruct (nums_ok p Mp) as (N1 & N2).
      pose proof (tsum_step _ _ _ _ p _ _ A Mp (term_ok p c _ _ Mp Ap Fc Nc C0 N1) J1) as A1.
      pose proof (tsum_step _ _ _ _ p _ _ B Mp (term_ok p c _ _ Mp Ap Fc Nc C0 N2) J1) as B1.
      cbn [length] in J. rewrite Nat.add_succ_r, <- Nat.add_succ_l in J.
      cbn [ofold]. unfold f_spherocity_step at 1. rewrite E. cbn [obind]. unfold f_cross in EC. rewrite EC. cbn [obind]. rewrite (fdiv_py_ok fone c Fc ltac:(lra)). cbn [obind].
      match goal with |- context [ofold _ l ?s1] => destruct (IH s1 _ _ _ _ Ml' Al' A1 B1 J) as (s' & E2 & A2 & B2) end.
      exists s'. split; [exact E2|]. unfold total_norm in *. cbn [map rsum length]. rewrite Nat.add_succ_r, <- Nat.add_succ_l, !Rmult_plus_distr_l, <- !Rplus_assoc.
      assert (EP : sph_phi a i (mom_of p) = / cross_len (mom_of p) (unit_axis a i) * phi_num (mom_of p)) by (unfold sph_phi, phi_num, cross_len; cbv zeta; unfold Rdiv; rewrite Rmult_1_l; reflexivity).
      assert (ET : sph_theta a i (mom_of p) = / cross_len (mom_of p) (unit_axis a i) * theta_num (mom_of p)) by (unfold sph_theta, theta_num, cross_len; cbv zeta; unfold Rdiv; rewrite Rmult_1_l; reflexivity).
      rewrite EP, ET. auto.
  Qed.
End Terms.

(** * The final products *)
Lemma part_ok : forall cN cC N C fN fC, 0 <= cN <= 2000000 -> 0 <= cC <= 2000000 -> fin fN -> fin fC -> near cN N (val fN) N -> near cC N (val fC) C -> 0 <= C <= N -> / 2 ^ 240 <= N <= 2 ^ 260 ->
  exists f, fdiv_py (lit 4 0) (fmul fpi fN) = Some f /\ let phi := 4 / (PI * N) in let part := fmul (fmul f f) fC in
    fin part /\ near (7 + 201 / 100 * cN + cC) (phi * phi * N) (val part) (phi * phi * C) /\ 0 <= phi * phi * C <= phi * phi * N /\ scale (phi * phi * N) /\ phi * phi * N * N <= 16213 / 10000.
Proof.
  intros cN cC N C fN fC HN HC FN FC NN NC BC RN. pose proof PI_dec as PD. destruct fpi_ok as (FP & NP). destruct four as (V4 & F4).
  pose proof (ipow2_pos 240) as P1. assert (N0 : 0 < N) by lra. pose proof u_tiny as [U0 U1].
  destruct (bounds_phi N RN) as (F0 & S1 & S2 & S3 & S4 & S5). set (phi := 4 / (PI * N)) in *.
  assert (PW : forall a b, (a <= 960)%nat -> (b <= 960)%nat -> forall m, / 2 ^ a <= m <= 2 ^ b -> scale m).
  { intros a b A B m (L & U). apply scale_pow. split; [eapply Rle_trans; [apply pow_half; exact A | exact L] | eapply Rle_trans; [exact U | apply Rle_pow; [lra | exact B]]]. }
  (* pi * N *)
  assert (NP' : near (12 / 10) 1 (val fpi) PI) by (unfold near; lra).
  pose proof (near_mult (12 / 10) cN 1 N (val fpi) PI (val fN) N (31416 / 10000) 1 ltac:(lra) ltac:(lra) (big_uu (12 / 10) cN ltac:(lra) ltac:(lra)) ltac:(lra) ltac:(lra) ltac:(lra) ltac:(lra)
                ltac:(rewrite Rabs_pos_eq; lra) ltac:(rewrite Rabs_pos_eq; lra) NP' NN) as Y0. rewrite Rmult_1_l in Y0.
  assert (PB : Rabs (PI * N) <= 31416 / 10000 * N) by (rewrite Rabs_pos_eq; [apply Rmult_le_compat_r; lra | apply Rmult_le_pos; lra]).
  assert (K1 : (12 / 10 * 1 + cN * (31416 / 10000) + / 100) * u <= / 1000) by (eapply Rle_trans; [apply big_u; lra | lra]).
  destruct (r_mul _ N (31416 / 10000) _ _ _ Y0 FP FN (PW 240%nat 260%nat ltac:(lia) ltac:(lia) N RN) PB ltac:(lra) K1 ltac:(lra)) as (FY & NY).
  set (y := fmul fpi fN) in *. set (m := PI * N) in *.
  assert (M0 : 0 < m) by (unfold m; apply Rmult_lt_0_compat; lra).
  assert (NY' : near (14 / 10 + 1001 / 1000 * cN) m (val y) m).
  { unfold near in *. eapply Rle_trans; [exact NY|]. unfold m. replace ((14 / 10 + 1001 / 1000 * cN) * u * (PI * N)) with ((14 / 10 + 1001 / 1000 * cN) * PI * (u * N)) by ring.
    replace ((12 / 10 * 1 + cN * (31416 / 10000) + / 100 + 31416 / 10000 + / 100) * u * N) with ((12 / 10 * 1 + cN * (31416 / 10000) + / 100 + 31416 / 10000 + / 100) * (u * N)) by ring.
    apply Rmult_le_compat_r; [apply Rmult_le_pos; lra|]. apply Rle_trans with ((14 / 10 + 1001 / 1000 * cN) * (31415 / 10000)); [lra | apply Rmult_le_compat_l; lra]. }
  assert (Y1 : 0 < val y).
  { unfold near in NY'. apply Rabs_le_inv in NY'. assert ((14 / 10 + 1001 / 1000 * cN) * u * m <= / 10000 * m) by (apply Rmult_le_compat_r; [lra | apply big_u; lra]). lra. }
  exists (fdiv (lit 4 0) y). split; [apply fdiv_py_ok; [exact FY | lra]|]. cbv zeta.
  (* 4 / (pi * N) *)
  assert (E4 : m * phi = 4) by (unfold phi, m in *; field; lra).
  pose proof (near_div 0 (14 / 10 + 1001 / 1000 * cN) m phi (val (lit 4 0)) 4 (val y) 1 ltac:(lra) ltac:(lra) ltac:(apply big_u; lra) M0 ltac:(lra) ltac:(lra) ltac:(rewrite Rabs_pos_eq; lra)
                ltac:(rewrite V4, E4; apply near_exact; lra) NY') as Z0.
  change (4 / m) with phi in Z0.
  assert (K2 : (0 + 1 * (14 / 10 + 1001 / 1000 * cN)) * (1001 / 1000) * u <= / 1000) by (eapply Rle_trans; [apply big_u; lra | lra]).
  destruct (r_div _ phi 1 _ _ _ Z0 F4 FY (PW 260%nat 242%nat ltac:(lia) ltac:(lia) phi S1) ltac:(rewrite Rabs_pos_eq; lra) ltac:(lra) ltac:(lra) K2 ltac:(lra)) as (Ff & Nf).
  set (f := fdiv (lit 4 0) y) in *.
  apply near_weak with (d := 243 / 100 + 10021 / 10000 * cN) (n := phi) in Nf; [|lra|lra|lra].
  set (d2 := 243 / 100 + 10021 / 10000 * cN) in *. assert (D2 : 0 <= d2 <= 2100000) by (unfold d2; lra).
  (* squared *)
  pose proof (near_mult d2 d2 phi phi (val f) phi (val f) phi 1 1 ltac:(lra) ltac:(lra) (big_uu d2 d2 ltac:(lra) ltac:(lra)) ltac:(lra) ltac:(lra) ltac:(lra) ltac:(lra) ltac:(rewrite Rabs_pos_eq; lra) ltac:(rewrite Rabs_pos_eq; lra) Nf Nf) as W0.
  assert (PP : 0 < phi * phi) by (apply Rmult_lt_0_compat; exact F0).
  assert (K3 : (d2 * 1 + d2 * 1 + / 100) * u <= / 1000) by (eapply Rle_trans; [apply big_u; lra | lra]).
  destruct (r_mul _ (phi * phi) 1 _ _ _ W0 Ff Ff (PW 520%nat 484%nat ltac:(lia) ltac:(lia) _ S2) ltac:(rewrite Rabs_pos_eq; lra) ltac:(lra) K3 ltac:(lra)) as (Fs & Ns).
  set (sq := fmul f f) in *. apply near_weak with (d := 2 * d2 + 102 / 100) (n := phi * phi) in Ns; [|lra|lra|lra]. set (d3 := 2 * d2 + 102 / 100) in *. assert (D3 : 0 <= d3 <= 4300000) by (unfold d3; lra).
  (* times C, twice *)
  pose proof (near_mult d3 cC (phi * phi) N (val sq) (phi * phi) (val fC) C 1 1 ltac:(lra) ltac:(lra) (big_uu d3 cC ltac:(lra) ltac:(lra)) ltac:(lra) ltac:(lra) ltac:(lra) ltac:(lra) ltac:(rewrite Rabs_pos_eq; lra) ltac:(rewrite Rabs_pos_eq; lra) Ns NC) as T0.
  assert (PN : 0 < phi * phi * N) by (apply Rmult_lt_0_compat; assumption).
  assert (B4 : Rabs (phi * phi * C) <= 1 * (phi * phi * N)) by (rewrite Rabs_pos_eq; [rewrite Rmult_1_l; apply Rmult_le_compat_l; lra | apply Rmult_le_pos; lra]).
  assert (K4 : (d3 * 1 + cC * 1 + / 100) * u <= / 1000) by (eapply Rle_trans; [apply big_u; lra | lra]).
  destruct (r_mul _ (phi * phi * N) 1 _ _ _ T0 Fs FC (PW 260%nat 244%nat ltac:(lia) ltac:(lia) _ S3) B4 ltac:(lra) K4 ltac:(lra)) as (Fp & Np).
  set (part := fmul sq fC) in *. split; [exact Fp|]. split; [|split; [split; [apply Rmult_le_pos; lra | apply Rmult_le_compat_l; lra]|split; [apply (PW 260%nat 244%nat); [lia | lia | exact S3] | exact S4]]].
  eapply near_weak; [| |split; [left; exact PN | apply Rle_refl] | exact Np]; unfold d3, d2; lra.
Qed.

Lemma last_ok : forall d4 cS g P S w N part fS, 0 <= d4 <= 4000000 -> 0 <= cS <= 14000000 -> fin part -> fin fS -> near d4 g (val part) P -> near cS (w * N) (val fS) S ->
  0 <= P <= g -> Rabs S <= 7 * (w * N) -> 0 < g -> 1 <= w <= 8192 -> 0 < N -> / 4 <= g * N <= 16213 / 10000 ->
  fin (fmul part fS) /\ Rabs (val (fmul part fS) - P * S) <= (7 * d4 + cS + 8) * (16213 / 10000) * u * w.
Proof.
  intros d4 cS g P S w N part fS H4 HS Fp Fs Np Ns BP BS G W N0 GN. pose proof u_tiny as [U0 U1].
  assert (CD : d4 * cS * u <= / 100). { apply bigger_uu; try lra. apply Rle_trans with (4000000 * 14000000); [apply Rmult_le_compat; lra | lra]. }
  assert (WN : 0 < w * N) by (apply Rmult_lt_0_compat; lra).
  pose proof (near_mult d4 cS g (w * N) (val part) P (val fS) S 1 7 ltac:(lra) ltac:(lra) CD ltac:(lra) ltac:(lra) ltac:(lra) ltac:(lra) ltac:(rewrite Rabs_pos_eq; lra) BS Np Ns) as M.
  assert (E : g * (w * N) = w * (g * N)) by ring.
  assert (B7 : Rabs (P * S) <= 7 * (g * (w * N))).
  { rewrite Rabs_mult. replace (7 * (g * (w * N))) with (g * (7 * (w * N))) by ring. apply Rmult_le_compat; try apply Rabs_pos; [rewrite Rabs_pos_eq; lra | exact BS]. }
  assert (SL : / 4 <= g * (w * N)). { rewrite E. apply Rle_trans with (1 * / 4); [lra | apply Rmult_le_compat; lra]. }
  assert (SU : g * (w * N) <= 16213 / 10000 * w). { rewrite E. rewrite (Rmult_comm (16213 / 10000)). apply Rmult_le_compat_l; lra. }
  assert (SC : scale (g * (w * N))).
  { apply scale_pow. split.
    - apply Rle_trans with (/ 2 ^ 2); [apply pow_half; lia | cbn; lra].
    - apply Rle_trans with (2 ^ 14); [cbn; lra | apply Rle_pow; [lra | lia]]. }
  destruct (r_mul _ (g * (w * N)) 7 _ _ _ M Fp Fs SC B7 ltac:(lra) ltac:(eapply Rle_trans; [apply bigger_u; lra | lra]) ltac:(lra)) as (F & R).
  split; [exact F|]. unfold near in R. eapply Rle_trans; [exact R|].
  apply Rle_trans with ((7 * d4 + cS + 8) * u * (16213 / 10000 * w)); [|right; ring].
  apply Rmult_le_compat; [apply Rmult_le_pos; lra | lra | apply Rmult_le_compat_r; lra | exact SU].
Qed.

(** * C196, C197 *)

(** With sin and cos accurate to k units of 2^-53 and n particles of moderate momentum whose angles to the axis have sines of at
    least delta: the azimuthal component of the gradient is within (230 k + 85 n + 900) u / delta^2 of the true derivative. *)
Lemma grad_both : forall fsin fcos k delta az inc l, 0 <= k <= 10 -> / 8192 <= delta <= 1 ->
  trig_ok k fsin sin inc -> trig_ok k fcos cos inc -> trig_ok k fsin sin az -> trig_ok k fcos cos az ->
  l <> [] -> (Z.of_nat (length l) <= 524288)%Z -> Forall moderate l ->
  let a := val az in let i := val inc in let n := unit_axis a i in let L := map mom_of l in
  (forall p, In p L -> delta * norm3 p <= sqrt (cross_sq p n)) ->
  let S := rsum (map (fun p => sqrt (cross_sq p n)) L) in let f := 4 / (PI * total_norm L) in
  exists s gphi gtheta, f_spherocity_with_grad fsin fcos az inc l = Some (s, (gphi, gtheta)) /\ fin gphi /\ fin gtheta /\
    Rabs (val gphi - f * f * S * rsum (map (sph_phi a i) L)) <= (230 * k + 85 * INR (length l) + 900) * u * (/ delta * / delta) /\
    Rabs (val gtheta - f * f * S * rsum (map (sph_theta a i) L)) <= (230 * k + 85 * INR (length l) + 900) * u * (/ delta * / delta).
Proof.
  intros fsin fcos k delta az inc l K D (F1 & T1) (F2 & T2) (F3 & T3) (F4 & T4) NE LN Ml a i nn L CL o f.
  assert (ZM : forall q, In q L -> p_sq q <> 0).
  { intros q Hq. apply in_map_iff in Hq as (p & <- & Hp). rewrite Forall_forall in Ml. destruct (mod_pos p (Ml p Hp)). auto. }
  set (n := length l) in *. assert (n1 : (1 <= n)%nat) by (unfold n; destruct l; [contradiction | cbn; lia]).
  assert (RN : 1 <= INR n <= 524288). { split; [apply (le_INR 1); exact n1|]. rewrite INR_IZR_INZ. apply IZR_le. exact LN. }
  assert (N1 : forall f g x, Rabs (val (f x) - g (val x)) <= k * u -> near k 1 (val (f x)) (g (val x))) by (intros; unfold near; lra).
  assert (P39 : 524288 <= 2 ^ 39). { replace 524288 with (2 ^ 19) by (cbn; lra). apply Rle_pow; [lra | lia]. }
  assert (A0 : csum (7 * k + 19) fzero 0 0 0). { split; [reflexivity|]. cbn [INR]. unfold near. change (val fzero) with 0. rewrite Rminus_0_r, Rabs_R0. repeat split; lra. }
  assert (B0 : nsum fzero 0 0). { split; [reflexivity|]. cbn [INR]. unfold near. change (val fzero) with 0. rewrite Rminus_0_r, Rabs_R0. lra. }
  assert (G0 : tsum k delta fzero 0 0 0). { split; [reflexivity|]. cbn [INR]. unfold near. change (val fzero) with 0. rewrite Rminus_0_r, Rabs_R0. repeat split; lra. }
  assert (AF : Forall (apart a i delta) l). { apply Forall_forall. intros p Hp. apply CL. apply in_map. exact Hp. }
  assert (CF : Forall (fun p => off_axis k a i (mom_of p)) l).
  { apply Forall_forall. intros p Hp. rewrite Forall_forall in Ml, AF. apply (apart_off k K a i delta D p (Ml p Hp) (AF p Hp)). }
  destruct (sfold_ok k ltac:(lra) (fcos az) (fsin az) (fcos inc) (fsin inc) a i F1 (N1 _ _ _ T1) F2 (N1 _ _ _ T2) F3 (N1 _ _ _ T3) F4 (N1 _ _ _ T4) l
              (FSAcc fzero fzero fzero fzero) 0 0 0%nat Ml CF A0 B0) as (s & E & A & B); [cbn [Nat.add]; fold n; lra|].
  destruct (gradfold_ok k K (fcos az) (fsin az) (fcos inc) (fsin inc) a i F1 (N1 _ _ _ T1) F2 (N1 _ _ _ T2) F3 (N1 _ _ _ T3) F4 (N1 _ _ _ T4) delta D l
              (FSAcc fzero fzero fzero fzero) 0 0 0 0%nat Ml AF G0 G0) as (s' & E' & GP & GT); [cbn [Nat.add]; fold n; lra|].
  rewrite E in E'. injection E' as <-.
  cbn [Nat.add] in A, B, GP, GT. fold n in A, B, GP, GT. rewrite !Rplus_0_l in A. rewrite !Rplus_0_l in B. rewrite !Rplus_0_l in GP. rewrite !Rplus_0_l in GT. fold L in A, B, GP, GT.
  assert (LE : L <> []) by (unfold L; destruct l; [contradiction | discriminate]).
  pose proof (total_norm_pos L LE ZM) as TP.
  assert (NL : / 2 ^ 240 <= total_norm L).
  { unfold L, total_norm. destruct l as [|p l']; [contradiction|]. inversion Ml as [|? ? (_ & Lp & _) Ml']; subst. cbn [map rsum]. assert (0 <= rsum (map norm3 (map mom_of l'))); [|lra].
    apply rsum_map_nonneg. intros x _. apply sqrt_pos. }
  destruct A as (Fo & No & O & UW & V0). destruct B as (Fs & Ns & NB). destruct GP as (Fp & Np & Bp & _). destruct GT as (Ft & Nt & Bt & _).
  assert (NU : total_norm L <= 2 ^ 260).
  { eapply Rle_trans; [exact UW|]. apply Rle_trans with (2 ^ 20 * 2 ^ 240); [|rewrite <- pow_add; apply Rle_pow; [lra | lia]].
    apply Rmult_le_compat_r; [left; apply pow2_pos|]. cbn [pow]. lra. }
  set (N := total_norm L) in *. fold nn in No, O. fold o in No, O.
  destruct (part_ok (7 + 2 * INR n) (7 * k + 19 + 2 * INR n) N o (fs_norm s) (fs_cross s) ltac:(lra) ltac:(lra) Fs Fo Ns No O (Logic.conj NL NU)) as (q & EF & R).
  unfold f_spherocity_with_grad. rewrite E. cbn [obind]. rewrite EF. cbn [obind]. cbv zeta in R. destruct R as (FR & NR & BR & SR & GN). fold f in NR, BR, SR, GN.
  destruct (bounds_phi N (Logic.conj NL NU)) as (f0 & _ & _ & _ & _ & GL). fold f in f0, GL.
  pose proof (inv_delta delta D) as ID. set (w := / delta) in *.
  assert (kw : 0 <= k * w <= 81920) by (split; [apply Rmult_le_pos; lra | apply Rle_trans with (10 * 8192); [apply Rmult_le_compat; lra | lra]]).
  assert (g0 : 0 < f * f * N) by (apply Rmult_lt_0_compat; [apply Rmult_lt_0_compat; lra | lra]).
  set (d4 := 7 + 201 / 100 * (7 + 2 * INR n) + (7 * k + 19 + 2 * INR n)) in *. set (cS := (90 * k + 266) * w + 8 * INR n) in *.
  assert (FIN : (7 * d4 + cS + 8) * (16213 / 10000) * u * w <= (230 * k + 85 * INR n + 900) * u * (w * w)).
  { replace ((7 * d4 + cS + 8) * (16213 / 10000) * u * w) with ((7 * d4 + cS + 8) * (16213 / 10000) * (u * w)) by ring. replace ((230 * k + 85 * INR n + 900) * u * (w * w)) with ((230 * k + 85 * INR n + 900) * w * (u * w)) by ring.
    pose proof u_tiny as [U0 U1]. apply Rmult_le_compat_r; [apply Rmult_le_pos; lra|]. unfold d4, cS.
    assert (nw : INR n * 1 <= INR n * w) by (apply Rmult_le_compat_l; lra). assert (kw1 : k * 1 <= k * w) by (apply Rmult_le_compat_l; lra). lra. }
  destruct (last_ok d4 cS (f * f * N) (f * f * o) _ w N _ (fs_phi s) ltac:(unfold d4; lra) ltac:(unfold cS; lra) FR Fp NR Np BR Bp g0 ID TP ltac:(lra)) as (FP & RP).
  destruct (last_ok d4 cS (f * f * N) (f * f * o) _ w N _ (fs_theta s) ltac:(unfold d4; lra) ltac:(unfold cS; lra) FR Ft NR Nt BR Bt g0 ID TP ltac:(lra)) as (FT & RT).
  do 3 eexists. split; [reflexivity|]. split; [exact FP|]. split; [exact FT|]. split; [eapply Rle_trans; [exact RP | exact FIN] | eapply Rle_trans; [exact RT | exact FIN]].
Qed.

Lemma apart_cross : forall delta p n, 0 < delta -> p_sq p <> 0 -> delta * norm3 p <= sqrt (cross_sq p n) -> cross_sq p n <> 0.
Proof.
  intros delta p n D N H E. rewrite E, sqrt_0 in H. assert (0 < norm3 p).
  { apply sqrt_lt_R0. unfold p_sq in *. pose proof (Rle_0_sqr (px p)). pose proof (Rle_0_sqr (py p)). pose proof (Rle_0_sqr (pz p)). unfold Rsqr in *. lra. }
  pose proof (Rmult_lt_0_compat _ _ D H0). lra.
Qed.

Theorem C196_azimuth_gradient : forall fsin fcos k delta az inc l, 0 <= k <= 10 -> / 8192 <= delta <= 1 ->
  trig_ok k fsin sin inc -> trig_ok k fcos cos inc -> trig_ok k fsin sin az -> trig_ok k fcos cos az ->
  l <> [] -> (Z.of_nat (length l) <= 524288)%Z -> Forall moderate l ->
  (forall p, In p (map mom_of l) -> delta * norm3 p <= sqrt (cross_sq p (unit_axis (val az) (val inc)))) ->
  exists s gphi gtheta slope, f_spherocity_with_grad fsin fcos az inc l = Some (s, (gphi, gtheta)) /\ fin gphi /\
    derivable_pt_lim (fun t => spherocity_along (map mom_of l) (unit_axis t (val inc))) (val az) slope /\
    Rabs (val gphi - slope) <= (230 * k + 85 * INR (length l) + 900) * u / (delta * delta).
Proof.
  intros fsin fcos k delta az inc l K D T1 T2 T3 T4 NE LN Ml CL.
  destruct (grad_both fsin fcos k delta az inc l K D T1 T2 T3 T4 NE LN Ml CL) as (s & gp & gt & E & FP & _ & RP & _).
  set (L := map mom_of l) in *. assert (LE : L <> []) by (unfold L; destruct l; [contradiction | discriminate]).
  assert (HC : forall p, In p L -> cross_sq p (unit_axis (val az) (val inc)) <> 0).
  { intros p Hp. apply (apart_cross delta); [lra | | apply CL; exact Hp]. apply in_map_iff in Hp as (q & <- & Hq). rewrite Forall_forall in Ml. destruct (mod_pos q (Ml q Hq)). auto. }
  destruct (C73_spherocity_objective L (val az) (val inc) LE HC) as (g1 & g2 & E1 & _ & DV). rewrite sph_value in E1 by assumption. injection E1 as _ E1 _. rewrite E1 in RP.
  exists s, gp, gt, g1. split; [exact E|]. split; [exact FP|]. split; [exact DV|]. unfold Rdiv. rewrite Rinv_mult. exact RP.
Qed.

(** The inclination component is within the same distance of the true derivative LESS the defect of the code's formula (C74). *)
Theorem C197_inclination_gradient : forall fsin fcos k delta az inc l, 0 <= k <= 10 -> / 8192 <= delta <= 1 ->
  trig_ok k fsin sin inc -> trig_ok k fcos cos inc -> trig_ok k fsin sin az -> trig_ok k fcos cos az ->
  l <> [] -> (Z.of_nat (length l) <= 524288)%Z -> Forall moderate l ->
  let n := unit_axis (val az) (val inc) in let L := map mom_of l in
  (forall p, In p L -> delta * norm3 p <= sqrt (cross_sq p n)) ->
  let f := 4 / (PI * total_norm L) in
  let defect := 2 * f * f * rsum (map (fun p => sqrt (cross_sq p n)) L) * cos (2 * val inc) * cos (val az) * rsum (map (fun p => px p * (py p - pz p) / sqrt (cross_sq p n)) L) in
  exists s gphi gtheta slope, f_spherocity_with_grad fsin fcos az inc l = Some (s, (gphi, gtheta)) /\ fin gtheta /\
    derivable_pt_lim (fun t => spherocity_along L (unit_axis (val az) t)) (val inc) slope /\
    Rabs (val gtheta - (slope - defect)) <= (230 * k + 85 * INR (length l) + 900) * u / (delta * delta).
Proof.
  intros fsin fcos k delta az inc l K D T1 T2 T3 T4 NE LN Ml n L CL f defect.
  destruct (grad_both fsin fcos k delta az inc l K D T1 T2 T3 T4 NE LN Ml CL) as (s & gp & gt & E & _ & FT & _ & RT). fold L in RT.
  assert (LE : L <> []) by (unfold L; destruct l; [contradiction | discriminate]).
  assert (HC : forall p, In p L -> cross_sq p n <> 0).
  { intros p Hp. apply (apart_cross delta); [lra | | apply CL; exact Hp]. apply in_map_iff in Hp as (q & <- & Hq). rewrite Forall_forall in Ml. destruct (mod_pos q (Ml q Hq)). auto. }
  destruct (C74_inclination_gradient_partial L (val az) (val inc) LE HC) as (g1 & g2 & tg & E1 & DV & EQ). rewrite sph_value in E1 by assumption. injection E1 as _ _ E1. rewrite E1, EQ in RT.
  exists s, gp, gt, tg. split; [exact E|]. split; [exact FT|]. split; [exact DV|]. unfold Rdiv at 1. rewrite Rinv_mult. exact RT.
Qed.

(** The hypotheses are met: the particle (49, 0, 0) and the z axis, at right angles. *)
Example C196_case : exists s gphi gtheta, f_spherocity_with_grad exact_sin exact_cos fzero fzero [(lit 49 0, fzero, fzero)] = Some (s, (gphi, gtheta)) /\
  Rabs (val gphi) <= 985 * u /\ Rabs (val gtheta) <= 985 * u.
Proof.
  destruct (lit_ok 49 0 ltac:(lia) ltac:(lia)) as (V & F). assert (V49 : val (lit 49 0) = 49) by (rewrite V; cbn; lra). set (p := (lit 49 0, fzero, fzero)).
  assert (N : norm3 (mom_of p) = 49).
  { unfold norm3, p_sq, mom_of, p. cbn [fst snd px py pz]. rewrite V49. change (val fzero) with 0. replace (49 * 49 + 0 * 0 + 0 * 0) with (49 * 49) by ring. apply sqrt_square. lra. }
  assert (M : moderate p).
  { split; [split; [exact F | split; reflexivity]|]. rewrite N. split.
    - apply Rle_trans with (/ 2 ^ 0); [apply pow_half; lia | cbn; lra].
    - apply Rle_trans with (2 ^ 6); [cbn; lra | apply Rle_pow; [lra | lia]]. }
  assert (C : sqrt (cross_sq (mom_of p) (unit_axis (val fzero) (val fzero))) = 49).
  { unfold cross_sq, unit_axis, mom_of, p. cbn [fst snd px py pz vx vy vz]. rewrite V49. change (val fzero) with 0. rewrite sin_0, cos_0.
    match goal with |- sqrt ?e = _ => replace e with (49 * 49) by ring end. apply sqrt_square. lra. }
  destruct trig_0 as (T1 & T2).
  assert (CL : forall q, In q (map mom_of [p]) -> 1 * norm3 q <= sqrt (cross_sq q (unit_axis (val fzero) (val fzero)))) by (intros q [<-|[]]; rewrite N, C; lra).
  destruct (grad_both exact_sin exact_cos 0 1 fzero fzero [p] ltac:(lra) ltac:(lra) T1 T2 T1 T2 ltac:(discriminate) ltac:(cbn; lia) (Forall_cons _ M (Forall_nil _)) CL) as (s & gp & gt & E & _ & _ & RP & RT).
  exists s, gp, gt. split; [exact E|].
  assert (ZP : rsum (map (sph_phi (val fzero) (val fzero)) (map mom_of [p])) = 0).
  { cbn [map rsum]. unfold sph_phi, mom_of, p. cbn [fst snd px py pz]. change (val fzero) with 0. rewrite sin_0, cos_0. ring. }
  assert (ZT : rsum (map (sph_theta (val fzero) (val fzero)) (map mom_of [p])) = 0).
  { cbn [map rsum]. unfold sph_theta, mom_of, p. cbn [fst snd px py pz]. change (val fzero) with 0. rewrite sin_0, cos_0. ring. }
  rewrite ZP, Rmult_0_r, Rminus_0_r in RP. rewrite ZT, Rmult_0_r, Rminus_0_r in RT. cbn [length INR] in RP, RT. rewrite Rinv_1 in RP, RT. lra.
Qed.

Print Assumptions C196_azimuth_gradient.
Print Assumptions C197_inclination_gradient.
