(** Symmetries of the double-precision operations: they hold for every pair of doubles, infinities and NaN included. *)
From Coq Require Import ZArith Reals List Bool Lia Lra.
From Flocq Require Import Core BinarySingleNaN.
From Verif Require Import SpecIEEE Floats FloatBase.
Import ListNotations.

Lemma b2sf_neg : forall x : f64, B2SF (fneg x) = SpecFloat.SFopp (B2SF x).
Proof. intros x. destruct x; reflexivity. Qed.

Lemma round_aux_neg : forall s m e l,
  binary_round_aux 53 1024 mode_NE (negb s) m e l = SpecFloat.SFopp (binary_round_aux 53 1024 mode_NE s m e l).
Proof. intros s m e l. unfold binary_round_aux. destruct (SpecFloat.shr_fexp 53 1024 m e l) as [mrs e'].
  cbn [choice_mode]. destruct (SpecFloat.shr_fexp _ _ _ e' _) as [mrs2 e2]. destruct (SpecFloat.shr_m mrs2); try reflexivity.
  unfold binary_fit_aux. destruct (e2 <=? 1024 - 53)%Z; reflexivity. Qed.
Lemma round_neg : forall s m e,
  binary_round 53 1024 mode_NE (negb s) m e = SpecFloat.SFopp (binary_round 53 1024 mode_NE s m e).
Proof. intros s m e. unfold binary_round. destruct (shl_align_fexp 53 1024 m e). apply round_aux_neg. Qed.

Lemma fmul_comm : forall x y, fmul x y = fmul y x.
Proof. intros x y. apply B2SF_inj. destruct x as [s|s| |s m e Hb], y as [t|t| |t n f Hc]; cbn; rewrite ?(xorb_comm s t); try reflexivity.
  unfold fmul, Bmult. rewrite !B2SF_SF2B. rewrite (xorb_comm s t), (Pos.mul_comm m n), (Z.add_comm e f). reflexivity. Qed.
Lemma fmul_neg_r : forall x y, fmul x (fneg y) = fneg (fmul x y).
Proof. intros x y. apply B2SF_inj. rewrite b2sf_neg.
  destruct x as [s|s| |s m e Hb], y as [t|t| |t n f Hc]; cbn; rewrite ?negb_xorb_r; try reflexivity.
  unfold fmul, Bmult, fneg, Bopp. rewrite !B2SF_SF2B. rewrite <- round_aux_neg, negb_xorb_r. reflexivity. Qed.
Lemma fneg_neg : forall x, fneg (fneg x) = x.
Proof. intros x. apply Bopp_involutive. Qed.

(** normalising the opposite integer gives the opposite double, except that zero keeps its given sign *)
Lemma normalize_neg : forall m e s, m <> 0%Z ->
  B2SF (@binary_normalize 53 1024 prec_pos prec_emax mode_NE (- m) e s) = SpecFloat.SFopp (B2SF (@binary_normalize 53 1024 prec_pos prec_emax mode_NE m e s)).
Proof. intros m e s H. destruct m as [|p|p]; [congruence| |]; cbn [Z.opp binary_normalize]; rewrite !B2SF_SF2B.
  - change true with (negb false). apply round_neg.
  - change true with (negb false). rewrite round_neg. destruct (binary_round 53 1024 mode_NE false p e); cbn; rewrite ?negb_involutive; reflexivity. Qed.

Lemma naive_swap : forall sx mx ex sy my ey ez, Fplus_naive sx mx ex sy my ey ez = Fplus_naive sy my ey sx mx ex ez.
Proof. intros. unfold Fplus_naive. apply Z.add_comm. Qed.

Lemma fsub_add : forall x y, fsub x y = fadd x (fneg y).
Proof. intros x y. apply B2SF_inj. destruct x as [s|s| |s m e Hb], y as [t|t| |t n f Hc]; reflexivity. Qed.
Lemma fadd_comm : forall x y, fadd x y = fadd y x.
Proof. intros x y. apply B2SF_inj. destruct x as [s|s| |s m e Hb], y as [t|t| |t n f Hc]; try reflexivity;
  try (destruct s, t; reflexivity). cbn [fadd Bplus]. rewrite naive_swap, (Z.min_comm e f). reflexivity. Qed.

Lemma naive_opp : forall sx mx ex sy my ey ez, Fplus_naive (negb sx) mx ex (negb sy) my ey ez = (- Fplus_naive sx mx ex sy my ey ez)%Z.
Proof. intros. unfold Fplus_naive. destruct sx, sy; cbn [negb SpecFloat.cond_Zopp]; lia. Qed.

(** swapping the operands of a subtraction flips the sign, or gives the same number (+0 or NaN) *)
Lemma fsub_swap : forall x y, fsub y x = fneg (fsub x y) \/ fsub y x = fsub x y.
Proof.
  intros x y. rewrite !fsub_add. destruct x as [s|s| |s m e Hb], y as [t|t| |t n f Hc];
    try (left; reflexivity); try (right; reflexivity).
  all: try (left; cbn; rewrite ?negb_involutive; reflexivity); try (destruct s, t; first [left; reflexivity | right; reflexivity]).
  - cbn [fadd fneg Bopp Bplus]. rewrite (Z.min_comm f e).
    assert (E : Fplus_naive t n f (negb s) m e (Z.min e f) = (- Fplus_naive s m e (negb t) n f (Z.min e f))%Z).
    { rewrite naive_swap, <- naive_opp, negb_involutive. reflexivity. }
    rewrite E. destruct (Z.eq_dec (Fplus_naive s m e (negb t) n f (Z.min e f)) 0) as [Z|Z].
    + right. rewrite Z. reflexivity.
    + left. apply B2SF_inj. rewrite normalize_neg by exact Z. rewrite <- b2sf_neg. reflexivity.
Qed.
Lemma fneg_nan : forall x, is_nan (fneg x) = is_nan x.
Proof. intros x. destruct x; reflexivity. Qed.
