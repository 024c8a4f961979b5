(** C214: the weighted distances and the partition in IEEE doubles. *)
From Coq Require Import ZArith Reals List Bool Lia Lra.
From Flocq Require Import Core BinarySingleNaN.
From Verif Require Import Prelude SpecReal SpecIEEE SpecDist RealBase Kinem DeltaR DeltaRProofs Floats FloatBase FloatOps P_Float P_Float7 P_Float9 P_Float6.
From Verif Require Import Dict MaskTypes SpecMask SpecAdj SpecPart Partition P_Part PartDist P_Part3.
From Verif Require Import Floats8.
Import ListNotations.
Open Scope R_scope.

(** * Vocabulary *)
(** numpy's power is accurate to [k] units where the result is between 2^-500 and 2^500. *)
Definition good_pow (k : R) (pow : f64 -> f64 -> f64) : Prop := forall x e, fin x -> fin e -> 0 < val x ->
  / 2 ^ 500 <= Rpower (val x) (val e) <= 2 ^ 500 -> fin (pow x e) /\ Rabs (val (pow x e) - Rpower (val x) (val e)) <= k * u * Rpower (val x) (val e).
(** Coordinates in range, for a parton (whose weight must be) and for any particle. *)
Definition track_ok (t : track) : Prop := fin (t_eta t) /\ Rabs (val (t_eta t)) <= 2 ^ 400 /\ usable (t_pol t).
Definition parton_ok (e : f64) (t : track) : Prop := track_ok t /\ fin (t_pt t) /\ 0 < val (t_pt t) /\ / 2 ^ 500 <= Rpower (val (t_pt t)) (val e) <= 2 ^ 500.
(** [w] is the true weight of the parton [p] and [d] its true distance from [h], for the coordinates stored. *)
Definition true_parts (e : f64) (p h : track) (w d : R) : Prop :=
  w = Rpower (val (t_pt p)) (val e) /\ exists g, gap (t_pol p) (t_pol h) g /\ d = sqrt ((val (t_eta p) - val (t_eta h)) * (val (t_eta p) - val (t_eta h)) + g * g).
(** How far the computed product can be from [w * d]. *)
Definition blur (k w d : R) : R := w * ((3 * k + 4) * d + 5) * u.

Lemma blur_calc k u0 w d w' d' q : 0 <= k <= 1000 -> 0 < u0 <= / 1000000000000000 -> 0 < w -> 0 <= d -> Rabs (w' - w) <= k * u0 * w -> Rabs (d' - d) <= ((2 * k + 2) * d + 4) * u0 ->
  Rabs (q - w' * d') <= u0 * Rabs (w' * d') + u0 * (w / 2) -> Rabs (q - w * d) <= w * ((3 * k + 4) * d + 5) * u0.
Proof.
  intros K U W D A B C. set (a := k * u0) in *. assert (A0 : 0 <= a) by (apply Rmult_le_pos; lra). assert (A1 : a <= 1000 * u0) by (apply Rmult_le_compat_r; lra).
  set (E := (2 * a + 2 * u0) * d + 4 * u0). assert (B' : Rabs (d' - d) <= E) by (eapply Rle_trans; [exact B|]; right; unfold E, a; ring).
  assert (E0 : 0 <= E) by (eapply Rle_trans; [apply Rabs_pos|exact B']).
  assert (Ad : Rabs d' <= d + E) by (replace d' with (d + (d' - d)) by ring; eapply Rle_trans; [apply Rabs_triang|]; rewrite (Rabs_pos_eq d) by exact D; lra).
  assert (Aw : Rabs w' <= w * (1 + a)) by (replace w' with (w + (w' - w)) by ring; eapply Rle_trans; [apply Rabs_triang|]; rewrite (Rabs_pos_eq w) by lra; lra).
  assert (P : Rabs (w' * d') <= w * (1 + a) * (d + E)) by (rewrite Rabs_mult; apply Rmult_le_compat; try apply Rabs_pos; assumption).
  assert (Q : Rabs (w' * d' - w * d) <= a * w * (d + E) + w * E).
  { replace (w' * d' - w * d) with ((w' - w) * d' + w * (d' - d)) by ring. eapply Rle_trans; [apply Rabs_triang|]. rewrite !Rabs_mult, (Rabs_pos_eq w) by lra.
    apply Rplus_le_compat; [apply Rmult_le_compat; try apply Rabs_pos; assumption | apply Rmult_le_compat_l; lra]. }
  replace (q - w * d) with ((q - w' * d') + (w' * d' - w * d)) by ring. eapply Rle_trans; [apply Rabs_triang|].
  assert (P' : u0 * Rabs (w' * d') <= u0 * (w * (1 + a) * (d + E))) by (apply Rmult_le_compat_l; lra).
  assert (M : u0 * (1 + a) * (d + E) + u0 / 2 + a * (d + E) + E <= ((3 * k + 4) * d + 5) * u0).
  { replace (((3 * k + 4) * d + 5) * u0) with ((3 * a + 4 * u0) * d + 5 * u0) by (unfold a; ring). clear - A0 A1 U D.
    assert (F : (d + E) = (1 + 2 * a + 2 * u0) * d + 4 * u0) by (unfold E; ring). rewrite F. unfold E.
    assert (X : a * (2 * a + 2 * u0) <= u0 / 100). { apply Rle_trans with (1000 * u0 * (2002 * u0)); [apply Rmult_le_compat; lra|]. replace (1000 * u0 * (2002 * u0)) with (u0 * (2002000 * u0)) by ring. apply Rmult_le_compat_l; lra. }
    assert (Y : (1 + a) * (1 + 2 * a + 2 * u0) <= 101 / 100). { apply Rle_trans with ((1 + / 1000) * (1 + / 1000)); [apply Rmult_le_compat; lra | lra]. }
    assert (Y' : u0 * ((1 + a) * (1 + 2 * a + 2 * u0)) <= u0 * (101 / 100)) by (apply Rmult_le_compat_l; lra).
    assert (Z : (a * (2 * a + 2 * u0) + u0 * ((1 + a) * (1 + 2 * a + 2 * u0))) * d <= (2 * u0) * d) by (apply Rmult_le_compat_r; lra).
    assert (V : u0 * ((1 + a) * (4 * u0)) <= u0 * (/ 100)) by (apply Rmult_le_compat_l; [lra|]; apply Rle_trans with (2 * (4 * u0)); [apply Rmult_le_compat_r; lra | lra]).
    assert (V' : a * (4 * u0) <= u0 / 100) by (replace (a * (4 * u0)) with (u0 * (4 * a)) by ring; unfold Rdiv; apply Rmult_le_compat_l; lra).
    lra. }
  assert (M' : w * (u0 * (1 + a) * (d + E) + u0 / 2 + a * (d + E) + E) <= w * (((3 * k + 4) * d + 5) * u0)) by (apply Rmult_le_compat_l; lra).
  lra.
Qed.

(** The computed distance. *)
Theorem C214_accuracy : forall pow hypot atan2 k, 0 <= k <= 1000 -> good_pow k pow -> good_hypot k hypot -> good_atan2 k atan2 ->
  forall e p h w d, fin e -> parton_ok e p -> track_ok h -> true_parts e p h w d ->
  fin (f_weighted pow hypot atan2 e p h) /\ Rabs (val (f_weighted pow hypot atan2 e p h) - w * d) <= blur k w d.
Proof.
  intros pow hypot atan2 k K GP GH GA e p h w d Fe ((FE & BE & UP) & FP & PP & RW) (FE' & BE' & UH) (-> & g & G & ED).
  pose proof (pow_lt 2 400 ltac:(lra)) as P400. assert (P41 : 2 ^ 400 <= 2 ^ 1000) by (apply Rle_pow; [lra|lia]).
  destruct (GP _ _ FP Fe PP RW) as (Fw & Ew).
  destruct (C174_accuracy hypot atan2 k K GH GA (t_eta p) (t_eta h) (t_pol p) (t_pol h) g FE FE' ltac:(lra) ltac:(lra) UP UH G) as (Fd & Ed). rewrite <- ED in Ed.
  unfold f_weighted, blur. set (W := Rpower (val (t_pt p)) (val e)) in *. set (ww := pow (t_pt p) e) in *. set (dd := f_delta _ _ _ _ _ _) in *. clearbody ww dd.
  pose proof u_b as U. assert (W0 : 0 < W) by apply exp_pos.
  assert (D0 : 0 <= d) by (rewrite ED; apply sqrt_pos).
  assert (DB : d <= 2 ^ 402).
  { rewrite ED. set (x := val (t_eta p) - val (t_eta h)). assert (X : Rabs x <= 2 * 2 ^ 400) by (unfold x, Rminus; eapply Rle_trans; [apply Rabs_triang|]; rewrite Rabs_Ropp; lra).
    assert (Y : Rabs g <= 4) by (destruct G as ((G1 & G2) & _); pose proof PI_4; apply Rabs_le; lra).
    apply Rle_trans with (Rabs x + Rabs g).
    - rewrite <- (sqrt_square (Rabs x + Rabs g)) by (pose proof (Rabs_pos x); pose proof (Rabs_pos g); lra). apply sqrt_le_1_alt.
      assert (SA : forall t, Rabs t * Rabs t = t * t) by (intros t; rewrite <- Rabs_mult; apply Rabs_pos_eq; nra). pose proof (SA x). pose proof (SA g).
      assert (0 <= Rabs x * Rabs g) by (apply Rmult_le_pos; apply Rabs_pos). nra.
    - replace (2 ^ 402) with (4 * 2 ^ 400) by (change (2 ^ 402) with (2 * (2 * 2 ^ 400)); ring). assert (2 <= 2 ^ 400) by (change (2 ^ 400) with (2 * 2 ^ 399); pose proof (pow_R1_Rle 2 399 ltac:(lra)); lra). lra. }
  assert (Wb : Rabs (val ww) <= 2 ^ 501).
  { replace (val ww) with (W + (val ww - W)) by ring. eapply Rle_trans; [apply Rabs_triang|]. rewrite (Rabs_pos_eq W) by lra. change (2 ^ 501) with (2 * 2 ^ 500).
    assert (k * u * W <= 1 * W) by (apply Rmult_le_compat_r; [lra|]; apply Rle_trans with (1000 * / 1000000000000000); [apply Rmult_le_compat|]; lra). lra. }
  assert (Db : Rabs (val dd) <= 2 ^ 404).
  { replace (val dd) with (d + (val dd - d)) by ring. eapply Rle_trans; [apply Rabs_triang|]. rewrite (Rabs_pos_eq d) by lra. change (2 ^ 404) with (2 * (2 * 2 ^ 402)).
    assert (P2 : 1 <= 2 ^ 402) by (apply pow_R1_Rle; lra). assert (((2 * k + 2) * d + 4) * u <= (2002 * 2 ^ 402 + 4) * / 1000000000000000).
    { apply Rmult_le_compat; try lra; [apply Rplus_le_le_0_compat; [apply Rmult_le_pos; lra|lra]|]. apply Rplus_le_compat_r. apply Rmult_le_compat; lra. }
    lra. }
  assert (OV : Rabs (SpecIEEE.nearest (val ww * val dd)) < bpow radix2 1024).
  { apply no_overflow. rewrite Rabs_mult. apply Rle_trans with (2 ^ 501 * 2 ^ 404); [apply Rmult_le_compat; try apply Rabs_pos; assumption|]. rewrite <- pow_add. unfold huge. apply Rle_pow; [lra|lia]. }
  destruct (fmul_ok ww dd Fw Fd OV) as (V & F & _). split; [exact F|]. rewrite V.
  apply (blur_calc k u W d (val ww) (val dd)); try assumption.
  eapply Rle_trans; [apply nearest_err_any|]. apply Rplus_le_compat_l, Rmult_le_compat_l; [lra|].
  apply Rle_trans with (/ 2 ^ 500 / 2); [|lra]. unfold min_normal. replace (/ 2 ^ 500 / 2) with (/ 2 ^ 501) by (change (2 ^ 501) with (2 * 2 ^ 500); field; apply pow_nonzero; lra).
  apply Rinv_le_contravar; [apply pow_lt; lra|]. apply Rle_pow; [lra|lia].
Qed.

(** * The choice of the parton *)
(** A double as a real or an infinity. *)
Definition key (x : f64) : ext := match x with B754_infinity s => if s then NInf else PInf | B754_nan => NaN | _ => Fin (val x) end.
Lemma key_lt x y : f_argmin_lt x y = argmin_lt (key x) (key y).
Proof.
  assert (FF : forall a b, fin a -> fin b -> flt a b = if Rlt_dec (val a) (val b) then true else false).
  { intros a b A B. pose proof (flt_ok a b A B) as H. destruct (Rlt_dec (val a) (val b)) as [L|L], (flt a b); try reflexivity; [apply H; exact L | exfalso; apply L, H; reflexivity]. }
  unfold f_argmin_lt. destruct x as [s|s| |s m e B], y as [s'|s'| |s' m' e' B']; cbn [is_nan negb key argmin_lt]; try reflexivity; try (apply FF; reflexivity); try (destruct s; reflexivity); try (destruct s'; reflexivity); destruct s, s'; reflexivity.
Qed.
Lemma f_weak : weak_order f_argmin_lt.
Proof.
  destruct argmin_weak as (W1 & W2 & W3). split; [intros x; rewrite key_lt; apply W1|]. split; intros x y z; rewrite !key_lt; [apply W2|apply W3].
Qed.

(** Of the particles ending at [v], number [k] is nearest to particle [i] by more than what rounding can blur. *)
Definition clearly_nearest (units : R) (e : f64) (es : edges) (tracks : list track) (v : Z) (i k : nat) : Prop :=
  incident es v k /\ exists p h w d, nth_error tracks k = Some p /\ nth_error tracks i = Some h /\ track_ok h /\ parton_ok e p /\ true_parts e p h w d /\
    forall k' p', incident es v k' -> k' <> k -> nth_error tracks k' = Some p' -> parton_ok e p' /\
      exists w' d', true_parts e p' h w' d' /\ w * d + blur units w d + blur units w' d' < w' * d'.

Theorem C214_partition : forall pow hypot atan2 k, 0 <= k <= 1000 -> good_pow k pow -> good_hypot k hypot -> good_atan2 k atan2 ->
  forall e n es status final (tracks : list track) agg kids, fin e -> event_ok n es status final tracks -> branches_ok n kids ->
  exists kids', f_partition pow hypot atan2 e es status final tracks (MGrp agg kids) = Ok (MGrp agg kids') /\
    forall q x, leaf_at agg kids q x -> exists x', leaf_at agg kids' q x' /\
      (forall v i j, selected es status kids v -> touches es x v -> final_desc es final v i -> clearly_nearest k e es tracks v i j ->
         (nth_error x' i = Some true <-> nth_error x j = Some true)) /\
      (forall i, (forall v, selected es status kids v -> touches es x v -> ~ final_desc es final v i) -> nth_error x' i = nth_error x i).
Proof.
  intros pow hypot atan2 k K GP GH GA e n es status final tracks agg kids Fe HE HB.
  destruct (C49_partition_descendants (f_weighted pow hypot atan2 e) f_argmin_lt n es status final tracks agg kids f_weak HE HB) as (kids' & E & L).
  exists kids'. split; [exact E|]. intros q x (Hx & Hl). destruct (L q (MArr x) Hx) as (m & Hm & M). destruct m as [x'|]; [|contradiction]. rewrite Hl in M. destruct M as (_ & M1 & M2).
  exists x'. split; [split; [exact Hm|exact Hl]|]. split; [|exact M2].
  intros v i j S T F (I & p & h & w & d & Hp & Hh & OH & OP & TP & C). apply (M1 v i j S T F). split; [exact I|]. exists p, h. split; [exact Hp|]. split; [exact Hh|].
  intros j' p' I' Hp'. destruct (Nat.eq_dec j' j) as [->|NE]; [rewrite Hp in Hp'; injection Hp' as <-; split; [apply f_weak|lia]|].
  destruct (C j' p' I' NE Hp') as (OP' & w' & d' & TP' & LT).
  destruct (C214_accuracy pow hypot atan2 k K GP GH GA e p h w d Fe OP OH TP) as (F1 & A1). destruct (C214_accuracy pow hypot atan2 k K GP GH GA e p' h w' d' Fe OP' OH TP') as (F2 & A2).
  set (a := f_weighted pow hypot atan2 e p h) in *. set (b := f_weighted pow hypot atan2 e p' h) in *. clearbody a b.
  assert (VL : val a < val b) by (apply Rabs_le_inv in A1, A2; lra).
  unfold f_argmin_lt. rewrite (fin_not_nan _ F1), (fin_not_nan _ F2). split; [|intros _; apply flt_ok; assumption].
  apply Bool.not_true_is_false. intros H. apply flt_ok in H; try assumption. lra.
Qed.

(** * A case *)
Definition ref_pow (x e : f64) : f64 := of_R (Rpower (val x) (val e)).
Lemma ref_pow_good : good_pow 2 ref_pow.
Proof.
  intros x e _ _ _ (L & H). unfold ref_pow. set (r := Rpower _ _) in *. assert (R0 : 0 < r) by apply exp_pos.
  assert (OV : Rabs (SpecIEEE.nearest r) < bpow radix2 1024). { apply no_overflow. rewrite Rabs_pos_eq by lra. eapply Rle_trans; [exact H|]. unfold huge. apply Rle_pow; [lra|lia]. }
  destruct (of_R_ok r OV) as (F & V). split; [exact F|]. rewrite V. eapply Rle_trans; [apply nearest_err_any|]. rewrite (Rabs_pos_eq r) by lra. pose proof u_b.
  assert (min_normal <= r). { apply Rle_trans with (/ 2 ^ 500); [|exact L]. unfold min_normal. apply Rinv_le_contravar; [apply pow_lt; lra|]. apply Rle_pow; [lra|lia]. }
  assert (u * min_normal <= u * r) by (apply Rmult_le_compat_l; lra). lra.
Qed.
Definition at_eta (z : Z) : track := Track fone (lit z 0) (near1 0, near1 0).
Lemma at_eta_ok z : (Z.abs z <= 8)%Z -> track_ok (at_eta z) /\ parton_ok fzero (at_eta z) /\ val (t_eta (at_eta z)) = IZR z.
Proof.
  intros Hz. destruct (lit_int z ltac:(lia)) as (V & F). destruct (lit_int 1 ltac:(lia)) as (V1 & F1). fold fone in V1, F1. assert (TO : track_ok (at_eta z)).
  { split; [exact F|]. split; [|apply usable_near1; lia]. cbn [t_eta at_eta]. rewrite V, <- abs_IZR. apply Rle_trans with (2 ^ 3); [|apply Rle_pow; [lra|lia]]. replace (2 ^ 3) with 8 by ring. apply IZR_le. exact Hz. }
  split; [exact TO|]. split; [|exact V]. split; [exact TO|]. split; [exact F1|]. cbn [t_pt at_eta]. rewrite V1. change (val fzero) with 0. rewrite Rpower_O by lra. split; [lra|].
  assert (1 <= 2 ^ 500) by (apply pow_R1_Rle; lra). split; [rewrite <- Rinv_1; apply Rinv_le_contravar; lra|lra].
Qed.
Lemma at_eta_parts a b : (Z.abs a <= 8)%Z -> (Z.abs b <= 8)%Z -> true_parts fzero (at_eta a) (at_eta b) 1 (IZR (Z.abs (a - b))).
Proof.
  intros A B. destruct (at_eta_ok a A) as (_ & _ & Va). destruct (at_eta_ok b B) as ((_ & _ & UB) & _ & Vb). destruct (lit_int 1 ltac:(lia)) as (V1 & F1). fold fone in V1, F1. split.
  - cbn [t_pt at_eta]. rewrite V1. change (val fzero) with 0. rewrite Rpower_O by lra. reflexivity.
  - exists 0. split.
    + pose proof PI_RGT_0. split; [lra|]. cbn [t_pol at_eta] in *. intros x y X Y. assert (P : 0 < re (near1 0, near1 0) * re (near1 0, near1 0) + im (near1 0, near1 0) * im (near1 0, near1 0)).
      { destruct UB as (_ & _ & Hs). apply Rnot_le_lt. intros L. rewrite sqrt_neg_0 in Hs by exact L. assert (0 < / 2 ^ 500) by (apply Rinv_0_lt_compat, pow_lt; lra). lra. }
      assert (x - y = 0) as -> by (rewrite <- (atan2_unique _ _ _ P X), <- (atan2_unique _ _ _ P Y); ring). exists 0%Z. cbn. ring.
    + rewrite Va, Vb, <- minus_IZR, abs_IZR. replace (IZR (a - b) * IZR (a - b) + 0 * 0) with (Rsqr (IZR (a - b))) by (unfold Rsqr; ring). symmetry. apply sqrt_Rsqr_abs.
Qed.
Definition tracks := [at_eta 0; at_eta 8; at_eta 1; at_eta 7; at_eta 0].
Example C214_case : good_pow 2 ref_pow /\ event_ok 5 Demo.es Demo.status Demo.final tracks /\ branches_ok 5 Demo.kids /\ selected Demo.es Demo.status Demo.kids 1%Z /\
  final_desc Demo.es Demo.final 1%Z 2 /\ clearly_nearest 2 fzero Demo.es tracks 1%Z 2 0.
Proof.
  split; [exact ref_pow_good|]. split.
  { destruct Demo.event_fine as (L1 & L2 & L3 & _ & HS & HD & HFi). split; [exact L1|split; [exact L2|split; [exact L3|split; [reflexivity|split; [exact HS|split; [exact HD|exact HFi]]]]]]. }
  split; [exact Demo.branches_fine|]. split; [exact Demo.vertex_selected|]. split; [split; [reflexivity|]; exists 1%Z, 2%Z; split; [reflexivity|constructor]|].
  split; [exists 0%Z; reflexivity|]. exists (at_eta 0), (at_eta 1), 1, 1. destruct (at_eta_ok 0 ltac:(lia)) as (_ & P0 & _). destruct (at_eta_ok 1 ltac:(lia)) as (T1 & _).
  split; [reflexivity|]. split; [reflexivity|]. split; [exact T1|]. split; [exact P0|]. split; [exact (at_eta_parts 0 1 ltac:(lia) ltac:(lia))|].
  intros k' p' (a & I) NE Hp'. assert (k' = 1%nat) as ->. { do 5 (destruct k' as [|k']; [cbn in I; try discriminate; congruence|]). destruct k'; discriminate. }
  cbn in Hp'. injection Hp' as <-. destruct (at_eta_ok 8 ltac:(lia)) as (_ & P8 & _). split; [exact P8|]. exists 1, 7. split; [exact (at_eta_parts 8 1 ltac:(lia) ltac:(lia))|].
  unfold blur. pose proof u_b. lra.
Qed.

Print Assumptions C214_accuracy.
Print Assumptions C214_partition.
