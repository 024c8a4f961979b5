(** C195: combined_mass of any number of particles in IEEE doubles. *)
From Coq Require Import ZArith Reals List Bool Lia Lra Permutation.
From Flocq Require Import Core BinarySingleNaN.
From Verif Require Import SpecIEEE Floats FloatBase FloatOps P_Float P_Float3 P_Float4 P_Float5 Floats3.
Import ListNotations.
Open Scope R_scope.

Lemma sq_pert X S A G : Rabs (X - S) <= (G - 1) * A -> Rabs S <= A -> 1 <= G -> Rabs (X * X - S * S) <= (G * G - 1) * (A * A) /\ X * X <= G * G * (A * A).
Proof.
  intros H1 H2 HG. assert (A0 : 0 <= A) by (pose proof (Rabs_pos S); lra).
  assert (HX : Rabs X <= G * A). { replace X with ((X - S) + S) by ring. eapply Rle_trans; [apply Rabs_triang|]. lra. }
  split.
  - replace (X * X - S * S) with ((X - S) * (X + S)) by ring. rewrite Rabs_mult.
    replace ((G * G - 1) * (A * A)) with ((G - 1) * A * ((G + 1) * A)) by ring. apply Rmult_le_compat; try apply Rabs_pos; [exact H1|].
    eapply Rle_trans; [apply Rabs_triang|]. lra.
  - rewrite <- (Rabs_pos_eq (X * X)) by apply Rle_0_sqr. rewrite Rabs_mult. replace (G * G * (A * A)) with (G * A * (G * A)) by ring.
    apply Rmult_le_compat; try apply Rabs_pos; exact HX.
Qed.

Lemma growth m : 0 <= 1 - INR m * u -> (1 + u) ^ m * (1 - INR m * u) <= 1.
Proof.
  pose proof u_pos as U0. induction m as [|m IH]; intros H; [cbn; lra|]. rewrite S_INR in *. cbn [pow].
  assert (IH' : (1 + u) ^ m * (1 - INR m * u) <= 1) by (apply IH; lra). assert (P : 0 < (1 + u) ^ m) by (apply pow_lt; lra).
  eapply Rle_trans; [|exact IH']. rewrite (Rmult_comm (1 + u)), Rmult_assoc. apply Rmult_le_compat_l; [lra|].
  pose proof (pos_INR m). assert (0 <= INR m * u * u) by (apply Rmult_le_pos; [apply Rmult_le_pos|]; lra). assert (0 <= u * u) by (apply Rmult_le_pos; lra). lra.
Qed.

Lemma growth2 n : INR n * u <= / 1000 -> 1 <= (1 + u) ^ n /\ (1 + u) ^ n * (1 + u) ^ n <= 1 + 202 / 100 * (INR n * u).
Proof.
  intros H. pose proof u_pos as U0. pose proof (pos_INR n) as N0. assert (X0 : 0 <= INR n * u) by (apply Rmult_le_pos; lra).
  split; [apply pow_R1_Rle; lra|]. rewrite <- pow_add. replace (n + n)%nat with (2 * n)%nat by lia.
  assert (E : INR (2 * n) = 2 * INR n) by (rewrite mult_INR; reflexivity).
  pose proof (growth (2 * n)) as Q. rewrite E, (Rmult_assoc 2) in Q. set (x := INR n * u) in *. set (g := (1 + u) ^ (2 * n)) in *. clearbody g x. specialize (Q ltac:(lra)).
  apply Rmult_le_reg_r with (1 - 2 * x); [lra|]. eapply Rle_trans; [exact Q|].
  assert (0 <= x * x <= / 1000 * x) by (split; [apply Rmult_le_pos; lra | apply Rmult_le_compat_r; lra]). nra.
Qed.

(** Reals: the sums of absolute components of particles on or inside the light cone. *)
Fixpoint rtot (f : fmom -> f64) (ps : list fmom) : R := match ps with [] => 0 | p :: r => Rabs (val (f p)) + rtot f r end.
Lemma rtot_abs f ps : total_abs (map f ps) = rtot f ps.
Proof. induction ps as [|p r IH]; [reflexivity|]. unfold total_abs in *. cbn [map fold_right rtot]. rewrite IH. reflexivity. Qed.
Lemma rtot_pos f ps : 0 <= rtot f ps.
Proof. induction ps as [|p r IH]; cbn; [lra|]. pose proof (Rabs_pos (val (f p))). lra. Qed.

(** The particle is on or inside the light cone. *)
Definition physical (p : fmom) : Prop := 0 <= val (me p) /\ val (mx p) * val (mx p) + val (my p) * val (my p) + val (mz p) * val (mz p) <= val (me p) * val (me p).

Lemma cs3 a b c x y z E e : 0 <= E -> 0 <= e -> a * a + b * b + c * c <= E * E -> x * x + y * y + z * z <= e * e -> a * x + b * y + c * z <= E * e.
Proof.
  intros HE He H1 H2. apply Rsqr_incr_0_var; [|apply Rmult_le_pos; assumption]. unfold Rsqr.
  apply Rle_trans with ((a * a + b * b + c * c) * (x * x + y * y + z * z)).
  - assert (0 <= (a * y - b * x) * (a * y - b * x)) by apply Rle_0_sqr. assert (0 <= (a * z - c * x) * (a * z - c * x)) by apply Rle_0_sqr. assert (0 <= (b * z - c * y) * (b * z - c * y)) by apply Rle_0_sqr. lra.
  - replace (E * e * (E * e)) with (E * E * (e * e)) by ring. apply Rmult_le_compat; try assumption.
    + assert (0 <= a * a) by apply Rle_0_sqr. assert (0 <= b * b) by apply Rle_0_sqr. assert (0 <= c * c) by apply Rle_0_sqr. lra.
    + assert (0 <= x * x) by apply Rle_0_sqr. assert (0 <= y * y) by apply Rle_0_sqr. assert (0 <= z * z) by apply Rle_0_sqr. lra.
Qed.

Lemma cone ps : Forall physical ps ->
  rtot mx ps * rtot mx ps + rtot my ps * rtot my ps + rtot mz ps * rtot mz ps <= rtot me ps * rtot me ps.
Proof.
  induction 1 as [|p r [H0 H1] _ IH]; cbn [rtot]; [lra|]. pose proof (rtot_pos me r). 
  assert (Q : forall a, Rabs a * Rabs a = a * a) by (intros a; symmetry; apply sq_abs).
  pose proof (cs3 (rtot mx r) (rtot my r) (rtot mz r) (Rabs (val (mx p))) (Rabs (val (my p))) (Rabs (val (mz p))) (rtot me r) (Rabs (val (me p)))) as C.
  rewrite !Q in C. specialize (C H (Rabs_pos _) IH H1).
  pose proof (Q (val (mx p))). pose proof (Q (val (my p))). pose proof (Q (val (mz p))). pose proof (Q (val (me p))). nra.
Qed.

Definition fin_mom (p : fmom) : Prop := fin (mx p) /\ fin (my p) /\ fin (mz p) /\ fin (me p).

(** One summed component: its square, against the square of the exact sum. *)
Lemma comp_sum (f : fmom -> f64) ps n t : length ps = S n -> INR n * u <= / 1000 -> Permutation (leaves t) (map f ps) -> Forall (fun p => fin (f p)) ps ->
  total_abs (map f ps) <= 2 ^ 499 ->
  let G := (1 + u) ^ n in let A := total_abs (map f ps) in let S := total (map f ps) in
  fin (f_sum t) /\ Rabs (val (f_sum t)) <= 2 ^ 500 /\
  Rabs (val (f_sum t) * val (f_sum t) - S * S) <= (G * G - 1) * (A * A) /\ val (f_sum t) * val (f_sum t) <= G * G * (A * A).
Proof.
  intros HL HN HP HF HA G A S. destruct (growth2 n HN) as (G1 & G2). fold G in G1, G2.
  destruct (total_perm _ _ HP) as (Q1 & Q2). assert (A0 : 0 <= A) by apply total_abs_pos.
  assert (HG : G <= 2).
  { apply Rnot_lt_le. intros F. assert (2 * 2 <= G * G) by (apply Rmult_le_compat; lra). lra. }
  assert (P9 : 0 < 2 ^ 499) by (apply pow_lt; lra).
  assert (GA : G * A <= 2 ^ 500) by (change 500%nat with (1 + 499)%nat; rewrite pow_add; apply Rmult_le_compat; [lra | exact A0 | cbn [pow]; lra | exact HA]).
  destruct (C145_sum t n) as (F & E).
  - rewrite (Permutation_length HP), map_length. exact HL.
  - apply (Permutation_Forall (Permutation_sym HP)). rewrite Forall_map. exact HF.
  - rewrite Q2. fold A G. eapply Rle_trans; [exact GA|]. apply pow_le_huge. lia.
  - rewrite Q1, Q2 in E. fold A S G in E. assert (HS : Rabs S <= A) by apply total_le.
    split; [exact F|]. split.
    + replace (val (f_sum t)) with ((val (f_sum t) - S) + S) by ring. eapply Rle_trans; [apply Rabs_triang|]. lra.
    + apply sq_pert; assumption.
Qed.

Lemma max_lip a b d : Rabs (a - b) <= d -> Rabs (Rmax 0 a - Rmax 0 b) <= d.
Proof. intros H. apply Rabs_le_inv in H. apply Rabs_le. unfold Rmax. destruct (Rle_dec 0 a), (Rle_dec 0 b); lra. Qed.

(** combined_mass of n + 1 particles, each component summed in any order. *)
Theorem C195_combined : forall ps n tx ty tz te t, length ps = S n -> INR n * u <= / 1000 -> Forall fin_mom ps ->
  Permutation (leaves tx) (map mx ps) -> Permutation (leaves ty) (map my ps) -> Permutation (leaves tz) (map mz ps) -> Permutation (leaves te) (map me ps) ->
  Permutation (leaves t) (f_minkowski (f_sum tx) (f_sum ty) (f_sum tz) (f_sum te)) ->
  total_abs (map mx ps) <= 2 ^ 499 -> total_abs (map my ps) <= 2 ^ 499 -> total_abs (map mz ps) <= 2 ^ 499 -> total_abs (map me ps) <= 2 ^ 499 ->
  let r := f_combined t in
  let sq x := x * x in
  let exact := sq (total (map me ps)) - (sq (total (map mx ps)) + sq (total (map my ps)) + sq (total (map mz ps))) in
  let size := sq (total_abs (map me ps)) + (sq (total_abs (map mx ps)) + sq (total_abs (map my ps)) + sq (total_abs (map mz ps))) in
  fin r /\ 0 <= val r /\ Rabs (val r * val r - Rmax 0 exact) <= (3 * INR n + 8) * u * size + 8 * u * min_normal.
Proof.
  intros ps n tx ty tz te t HL HN HF Px Py Pz Pe Pt Ax Ay Az Ae r sq exact size.
  assert (FX : Forall (fun p => fin (mx p)) ps) by (eapply Forall_impl; [|exact HF]; intros p Hp; apply Hp).
  assert (FY : Forall (fun p => fin (my p)) ps) by (eapply Forall_impl; [|exact HF]; intros p Hp; apply Hp).
  assert (FZ : Forall (fun p => fin (mz p)) ps) by (eapply Forall_impl; [|exact HF]; intros p Hp; apply Hp).
  assert (FE : Forall (fun p => fin (me p)) ps) by (eapply Forall_impl; [|exact HF]; intros p Hp; apply Hp).
  destruct (comp_sum mx ps n tx HL HN Px FX Ax) as (Fx & Bx & Dx & Ux).
  destruct (comp_sum my ps n ty HL HN Py FY Ay) as (Fy & By & Dy & Uy).
  destruct (comp_sum mz ps n tz HL HN Pz FZ Az) as (Fz & Bz & Dz & Uz).
  destruct (comp_sum me ps n te HL HN Pe FE Ae) as (Fe & Be & De & Ue).
  destruct (C149_combined _ _ _ _ t Fx Fy Fz Fe Bx By Bz Be Pt) as (Fr & Rr & Er). fold r in Fr, Rr, Er.
  split; [exact Fr|]. split; [exact Rr|].
  destruct (growth2 n HN) as (G1 & G2). unfold exact, size, sq in *. clear exact size sq.
  set (G := (1 + u) ^ n) in *. set (G' := G * G) in *. clearbody G'.
  set (X := val (f_sum tx) * val (f_sum tx)) in *. set (Y := val (f_sum ty) * val (f_sum ty)) in *. set (Z := val (f_sum tz) * val (f_sum tz)) in *. set (E := val (f_sum te) * val (f_sum te)) in *.
  set (sx := total (map mx ps) * total (map mx ps)) in *. set (sy := total (map my ps) * total (map my ps)) in *. set (sz := total (map mz ps) * total (map mz ps)) in *. set (se := total (map me ps) * total (map me ps)) in *.
  assert (a0 : 0 <= total_abs (map mx ps) * total_abs (map mx ps)) by apply Rle_0_sqr. set (ax := total_abs (map mx ps) * total_abs (map mx ps)) in *.
  assert (b0 : 0 <= total_abs (map my ps) * total_abs (map my ps)) by apply Rle_0_sqr. set (ay := total_abs (map my ps) * total_abs (map my ps)) in *.
  assert (c0 : 0 <= total_abs (map mz ps) * total_abs (map mz ps)) by apply Rle_0_sqr. set (az := total_abs (map mz ps) * total_abs (map mz ps)) in *.
  assert (d0 : 0 <= total_abs (map me ps) * total_abs (map me ps)) by apply Rle_0_sqr. set (ae := total_abs (map me ps) * total_abs (map me ps)) in *.
  assert (M : Rabs (Rmax 0 (E - (X + Y + Z)) - Rmax 0 (se - (sx + sy + sz))) <= (G' - 1) * (ae + (ax + ay + az))).
  { apply max_lip. apply Rabs_le_inv in Dx, Dy, Dz, De. apply Rabs_le. lra. }
  pose proof u_pos as U0. pose proof u_small as U1. pose proof (pos_INR n) as N0.
  assert (S1 : E + (X + Y + Z) <= G' * (ae + (ax + ay + az))) by lra.
  assert (S2 : 0 <= ae + (ax + ay + az)) by lra. set (SZ := ae + (ax + ay + az)) in *. clearbody SZ X Y Z E sx sy sz se.
  replace (val r * val r - Rmax 0 (se - (sx + sy + sz))) with ((val r * val r - Rmax 0 (E - (X + Y + Z))) + (Rmax 0 (E - (X + Y + Z)) - Rmax 0 (se - (sx + sy + sz)))) by ring.
  eapply Rle_trans; [apply Rabs_triang|].
  assert (T1 : 7 * u * (E + (X + Y + Z)) <= 7 * u * (G' * SZ)) by (apply Rmult_le_compat_l; lra).
  assert (T2 : (7 * u * G' + (G' - 1)) * SZ <= (3 * INR n + 8) * u * SZ).
  { apply Rmult_le_compat_r; [exact S2|]. assert (NU : 0 <= INR n * u) by (apply Rmult_le_pos; lra).
    assert (u * G' <= u * (101 / 100)) by (apply Rmult_le_compat_l; lra). lra. }
  lra.
Qed.
Print Assumptions C195_combined.

Lemma total_nonneg f (ps : list fmom) : Forall (fun p => 0 <= val (f p)) ps -> total (map f ps) = total_abs (map f ps).
Proof. induction 1 as [|p r H _ IH]; [reflexivity|]. unfold total, total_abs in *. cbn [map fold_right]. rewrite IH, Rabs_pos_eq by exact H. reflexivity. Qed.

(** For particles on or inside the light cone the square is accurate to (6 n + 16) units of the squared total energy. *)
Theorem C195_physical : forall ps n tx ty tz te t, length ps = S n -> INR n * u <= / 1000 -> Forall fin_mom ps -> Forall physical ps ->
  Permutation (leaves tx) (map mx ps) -> Permutation (leaves ty) (map my ps) -> Permutation (leaves tz) (map mz ps) -> Permutation (leaves te) (map me ps) ->
  Permutation (leaves t) (f_minkowski (f_sum tx) (f_sum ty) (f_sum tz) (f_sum te)) ->
  let energy := total (map me ps) in
  energy <= 2 ^ 499 ->
  let r := f_combined t in
  let sq x := x * x in
  let exact := sq energy - (sq (total (map mx ps)) + sq (total (map my ps)) + sq (total (map mz ps))) in
  fin r /\ 0 <= val r /\ 0 <= exact /\ Rabs (val r * val r - exact) <= (6 * INR n + 16) * u * sq energy + 8 * u * min_normal.
Proof.
  intros ps n tx ty tz te t HL HN HF HC Px Py Pz Pe Pt energy HE r sq exact.
  pose proof (cone ps HC) as K. rewrite <- !rtot_abs in K.
  assert (EE : energy = total_abs (map me ps)). { apply total_nonneg. eapply Forall_impl; [|exact HC]. intros p Hp. apply Hp. }
  assert (E0 : 0 <= energy) by (rewrite EE; apply total_abs_pos). rewrite <- EE in K.
  pose proof (total_abs_pos (map mx ps)) as X0. pose proof (total_abs_pos (map my ps)) as Y0. pose proof (total_abs_pos (map mz ps)) as Z0.
  set (ax := total_abs (map mx ps)) in *. set (ay := total_abs (map my ps)) in *. set (az := total_abs (map mz ps)) in *.
  assert (qx : 0 <= ax * ax) by apply Rle_0_sqr. assert (qy : 0 <= ay * ay) by apply Rle_0_sqr. assert (qz : 0 <= az * az) by apply Rle_0_sqr.
  assert (LE : forall a, 0 <= a -> a * a <= energy * energy -> a <= 2 ^ 499). { intros a Ha H. apply Rle_trans with energy; [|exact HE]. apply Rsqr_incr_0_var; [exact H | exact E0]. }
  destruct (C195_combined ps n tx ty tz te t HL HN HF Px Py Pz Pe Pt) as (Fr & Rr & Er); fold ax ay az; [apply LE; lra | apply LE; lra | apply LE; lra | rewrite <- EE; exact HE |].
  fold r in Fr, Rr, Er. fold energy in Er. rewrite <- EE in Er. fold ax ay az in Er.
  assert (SQ : forall f, total (map f ps) * total (map f ps) <= total_abs (map f ps) * total_abs (map f ps)).
  { intros f. rewrite (sq_abs (total (map f ps))). pose proof (total_le (map f ps)). apply Rmult_le_compat; try apply Rabs_pos; assumption. }
  pose proof (SQ mx) as sx. pose proof (SQ my) as sy. pose proof (SQ mz) as sz. fold ax in sx. fold ay in sy. fold az in sz.
  assert (X1 : 0 <= exact) by (unfold exact, sq; lra).
  split; [exact Fr|]. split; [exact Rr|]. split; [exact X1|].
  change (energy * energy - _) with exact in Er. rewrite (Rmax_right 0 exact X1) in Er. eapply Rle_trans; [exact Er|].
  pose proof u_pos as U0. pose proof (pos_INR n) as N0. apply Rplus_le_compat_r. unfold sq.
  replace ((6 * INR n + 16) * u * (energy * energy)) with ((3 * INR n + 8) * u * (2 * (energy * energy))) by ring.
  apply Rmult_le_compat_l; [apply Rmult_le_pos; lra | lra].
Qed.
Print Assumptions C195_physical.

(** Three particles of 1, 2 and 4 GeV along the axes: the squared mass is 49 - 21 = 28. *)
Definition c195_ps : list fmom := [(fone, fzero, fzero, fone); (fzero, lit 2 0, fzero, lit 2 0); (fzero, fzero, lit 4 0, lit 4 0)].
Definition lsum (a b c : f64) : order := Node (Node (Leaf a) (Leaf b)) (Leaf c).
Example C195_case :
  let tx := lsum fone fzero fzero in let ty := lsum fzero (lit 2 0) fzero in let tz := lsum fzero fzero (lit 4 0) in let te := lsum fone (lit 2 0) (lit 4 0) in
  let m := f_minkowski (f_sum tx) (f_sum ty) (f_sum tz) (f_sum te) in
  Forall fin_mom c195_ps /\ Forall physical c195_ps /\ leaves tx = map mx c195_ps /\ leaves ty = map my c195_ps /\ leaves tz = map mz c195_ps /\ leaves te = map me c195_ps /\
  total (map me c195_ps) = 7 /\
  B2SF (f_combined (Node (Node (Leaf (nth 0 m fzero)) (Leaf (nth 1 m fzero))) (Node (Leaf (nth 2 m fzero)) (Leaf (nth 3 m fzero))))) = B2SF (lit 5957702309312746 (-50)).
Proof.
  assert (V1 : val fone = 1) by (exact (proj1 (lit_int 1 ltac:(lia)))). assert (V0 : val fzero = 0) by reflexivity.
  assert (V2 : val (lit 2 0) = 2) by (exact (proj1 (lit_int 2 ltac:(lia)))). assert (V4 : val (lit 4 0) = 4) by (exact (proj1 (lit_int 4 ltac:(lia)))).
  cbv zeta. split; [repeat (apply Forall_cons; [repeat split|]); apply Forall_nil|]. split; [|repeat split].
  - repeat (apply Forall_cons; [unfold physical; cbn [mx my mz me fst snd]; rewrite ?V1, ?V0, ?V2, ?V4; lra|]). apply Forall_nil.
  - unfold total. cbn [map fold_right c195_ps me snd]. rewrite V1, V2, V4. lra.
Qed.
