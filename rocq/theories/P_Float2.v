(** Properties of the compiled kernels in IEEE double arithmetic, continued: the Jaccard distance. *)
From Coq Require Import ZArith Reals List Bool Lia Lra.
From Flocq Require Import Core BinarySingleNaN.
From Verif Require Import SpecIEEE Floats FloatBase FloatOps P_Float.
Import ListNotations.
Open Scope R_scope.

Lemma val_one : val fone = 1 /\ fin fone.
Proof. destruct (lit_int 1 ltac:(lia)) as (A & B). split; assumption. Qed.

(** multiplying a weight by a bool is exact *)
Lemma times_bool : forall w b, fin w -> val (fmul w (of_bool b)) = (if b then val w else 0) /\ fin (fmul w (of_bool b)).
Proof. intros w b F. destruct val_one as (V1 & F1).
  assert (Vb : val (of_bool b) = if b then 1 else 0) by (destruct b; [exact V1 | reflexivity]).
  assert (Fb : fin (of_bool b)) by (destruct b; [exact F1 | reflexivity]).
  assert (E : nearest (val w * val (of_bool b)) = if b then val w else 0).
  { rewrite Vb. destruct b; [rewrite Rmult_1_r; apply nearest_id, val_fmt | rewrite Rmult_0_r; apply nearest_0]. }
  destruct (fmul_ok w (of_bool b) F Fb) as (A & B & _).
  - rewrite E. destruct b; [apply val_lt | rewrite Rabs_R0; apply bpow_gt_0].
  - rewrite A, E. split; [reflexivity | exact B]. Qed.

Definition capped (w : f64) : Prop := fin w /\ 0 <= val w <= 2 ^ 900.

Lemma fmt_k900 : forall k, (0 <= k <= 2 ^ 53)%Z -> fmt (IZR k * 2 ^ 900).
Proof. intros k Hk. rewrite <- (bpow_pos_pow 900). destruct (Z.eq_dec k (2 ^ 53)) as [->|N].
  - replace (IZR (2 ^ 53)) with (bpow radix2 53) by reflexivity. rewrite <- bpow_plus. apply fmt_bpow. lia.
  - apply generic_format_FLT. exists (Float radix2 k 900); [reflexivity | cbn [Fnum]; change (Zpower radix2 53) with (2 ^ 53)%Z; lia | cbn; lia]. Qed.

Lemma pow900 : 0 < 2 ^ 900. Proof. apply pow_lt; lra. Qed.

Lemma k900_huge : forall k, (0 <= k <= 2 ^ 53)%Z -> IZR k * 2 ^ 900 <= huge.
Proof. intros k Hk. apply Rle_trans with (2 ^ 53 * 2 ^ 900).
  - apply Rmult_le_compat_r; [left; apply pow900|]. rewrite pow_IZR. apply IZR_le. exact (proj2 Hk).
  - rewrite <- pow_add. unfold huge. apply Rle_pow; [lra | lia]. Qed.

(** one step of the accumulation of non-negative weights *)
Lemma acc_step : forall s t k, fin s -> fin t -> 0 <= val s <= IZR k * 2 ^ 900 -> 0 <= val t <= 2 ^ 900 -> (0 <= k < 2 ^ 53)%Z ->
  fin (fadd s t) /\ val (fadd s t) = nearest (val s + val t) /\ 0 <= val (fadd s t) <= IZR (k + 1) * 2 ^ 900.
Proof. intros s t k Fs Ft Hs Ht Hk. assert (B : val s + val t <= IZR (k + 1) * 2 ^ 900) by (rewrite plus_IZR; lra).
  pose proof (k900_huge (k + 1) ltac:(lia)) as G. destruct (fadd_ok s t Fs Ft) as (V & F).
  { apply no_overflow. rewrite Rabs_pos_eq; lra. }
  split; [exact F|]. split; [exact V|]. rewrite V. split; [rewrite <- nearest_0; apply nearest_le; lra|].
  apply nearest_le_fmt; [apply fmt_k900; lia | exact B]. Qed.

Lemma nearest_add_between : forall x y : f64, 0 <= val x + val y ->
  (1 - u) * (val x + val y) <= nearest (val x + val y) <= (val x + val y) / (1 - u).
Proof. intros x y P. destruct (add_rel x y) as (e & He & ->). apply Rabs_le_inv in He. pose proof u_pos. pose proof u_small.
  split; [nra|]. apply Rmult_le_reg_r with (1 - u); [lra|]. replace ((val x + val y) / (1 - u) * (1 - u)) with (val x + val y) by (field; lra).
  assert ((1 + e) * (1 - u) <= 1) by nra. nra. Qed.

Lemma pow_1u : forall k, 0 < (1 - u) ^ k <= 1.
Proof. intros k. pose proof u_pos. pose proof u_small. split; [apply pow_lt; lra|]. assert (I : (1 - u) ^ k <= 1 ^ k) by (apply pow_incr; lra). rewrite pow1 in I. exact I. Qed.

Lemma between_step : forall k a b r s, 0 <= a -> 0 <= b -> up_to_roundings k r a -> (1 - u) * (r + b) <= s <= (r + b) / (1 - u) ->
  up_to_roundings (S k) s (a + b).
Proof. intros k a b r s Ha Hb [L U] [L' U']. pose proof (pow_1u k) as [P Q]. pose proof u_pos. pose proof u_small. unfold up_to_roundings. cbn [pow].
  set (f := (1 - u) ^ k) in *. clearbody f. assert (I : 1 <= / f). { rewrite <- Rinv_1. apply Rinv_le_contravar; lra. } split.
  - rewrite Rmult_assoc. eapply Rle_trans; [|exact L']. apply Rmult_le_compat_l; [lra|]. nra.
  - eapply Rle_trans; [exact U'|]. unfold Rdiv in *. rewrite Rinv_mult. rewrite (Rmult_comm (/ (1 - u))), <- Rmult_assoc.
    apply Rmult_le_compat_r; [left; apply Rinv_0_lt_compat; lra|]. nra. Qed.

(** the loop: everything about both sums at once *)
Lemma loop_main : forall uu vv ww us ds k n a d,
  Forall capped ww -> fin us -> fin ds -> 0 <= val ds <= val us -> val us <= IZR k * 2 ^ 900 -> (0 <= k)%Z -> (k + Z.of_nat (length ww) <= 2 ^ 53)%Z ->
  0 <= a -> 0 <= d -> up_to_roundings n (val us) a -> up_to_roundings n (val ds) d ->
  let s := jaccard_loop uu vv ww us ds in
  fin (fst s) /\ fin (snd s) /\ 0 <= val (snd s) <= val (fst s) /\ val (fst s) <= huge
  /\ up_to_roundings (n + length ww) (val (fst s)) (a + weight_where orb uu vv (map val ww))
  /\ up_to_roundings (n + length ww) (val (snd s)) (d + weight_where xorb uu vv (map val ww)).
Proof.
  assert (MONO : forall n m r e, 0 <= e -> up_to_roundings n r e -> up_to_roundings (n + m) r (e + 0)).
  { intros n m r e He [L U]. rewrite Rplus_0_r. unfold up_to_roundings. rewrite pow_add. pose proof (pow_1u n) as [Pn Qn]. pose proof (pow_1u m) as [Pm Qm].
    set (f := (1 - u) ^ n) in *. set (g := (1 - u) ^ m) in *. clearbody f g. split.
    - eapply Rle_trans; [|exact L]. rewrite (Rmult_comm f g), Rmult_assoc. rewrite <- (Rmult_1_l (f * e)) at 2. apply Rmult_le_compat_r; [nra | exact Qm].
    - eapply Rle_trans; [exact U|]. unfold Rdiv. rewrite Rinv_mult. apply Rmult_le_compat_l; [exact He|].
      rewrite <- (Rmult_1_r (/ f)) at 1. apply Rmult_le_compat_l; [left; apply Rinv_0_lt_compat, Pn|]. rewrite <- Rinv_1. apply Rinv_le_contravar; lra. }
  induction uu as [|x uu IH]; intros vv ww us ds k n a d HW Fu Fd Hd Hk K0 KL Pa Pd Ua Ud.
  - cbn [jaccard_loop weight_where fst snd]. pose proof (k900_huge k ltac:(lia)).
    repeat split; try assumption; try lra; try (apply MONO; assumption).
  - destruct vv as [|y vv]; [cbn [jaccard_loop weight_where fst snd]; pose proof (k900_huge k ltac:(lia)); repeat split; try assumption; try lra; apply MONO; assumption|].
    destruct ww as [|w ww]; [cbn [jaccard_loop weight_where fst snd map]; pose proof (k900_huge k ltac:(lia)); repeat split; try assumption; try lra; apply MONO; assumption|].
    cbn [jaccard_loop weight_where map]. inversion_clear HW as [|? ? [Fw Pw] HW']. cbn [length] in KL |- *.
    set (nz := (x || y)%bool). set (un := (nz && negb (Bool.eqb x y))%bool). assert (Eu : un = xorb x y) by (destruct x, y; reflexivity).
    destruct (times_bool w nz Fw) as (Vn & Fn). destruct (times_bool w un Fw) as (Vu & Fn').
    assert (Bn : 0 <= val (fmul w (of_bool nz)) <= 2 ^ 900) by (rewrite Vn; destruct nz; lra).
    assert (Bu : 0 <= val (fmul w (of_bool un)) <= 2 ^ 900) by (rewrite Vu; destruct un; lra).
    assert (Bun : val (fmul w (of_bool un)) <= val (fmul w (of_bool nz))) by (rewrite Vu, Vn; unfold un; destruct nz, (Bool.eqb x y); cbn [andb negb]; lra).
    destruct (acc_step us (fmul w (of_bool nz)) k Fu Fn ltac:(lra) Bn ltac:(lia)) as (F1 & V1 & B1).
    destruct (acc_step ds (fmul w (of_bool un)) k Fd Fn' ltac:(lra) Bu ltac:(lia)) as (F2 & V2 & B2).
    assert (M : val (fadd ds (fmul w (of_bool un))) <= val (fadd us (fmul w (of_bool nz)))) by (rewrite V1, V2; apply nearest_le; lra).
    pose proof (nearest_add_between us (fmul w (of_bool nz)) ltac:(lra)) as N1. rewrite <- V1 in N1.
    pose proof (nearest_add_between ds (fmul w (of_bool un)) ltac:(lra)) as N2. rewrite <- V2 in N2.
    pose proof (between_step n a _ _ _ Pa (proj1 Bn) Ua N1) as S1. pose proof (between_step n d _ _ _ Pd (proj1 Bu) Ud N2) as S2.
    assert (Q1 : 0 <= a + val (fmul w (of_bool nz))) by lra. assert (Q2 : 0 <= d + val (fmul w (of_bool un))) by lra.
    specialize (IH vv ww _ _ (k + 1)%Z (S n) _ _ HW' F1 F2 (Logic.conj (proj1 B2) M) (proj2 B1) ltac:(lia) ltac:(lia) Q1 Q2 S1 S2).
    cbv zeta in IH. destruct IH as (I1 & I2 & I3 & I4 & I5 & I6). cbv zeta. split; [exact I1|]. split; [exact I2|]. split; [exact I3|]. split; [exact I4|].
    rewrite Vn, Rplus_assoc in I5. rewrite Vu, Rplus_assoc in I6. rewrite <- Eu. cbn [Nat.add] in I5, I6. rewrite <- plus_n_Sm. split; [exact I5 | exact I6].
Qed.

Lemma feq_zero : forall x, fin x -> feq x fzero = true <-> val x = 0.
Proof. intros x F. unfold feq. rewrite Beqb_correct by (assumption || reflexivity). fold (val x). change (B2R fzero) with 0.
  destruct (Req_bool_spec (val x) 0); split; intros; congruence. Qed.

Lemma weight_nonneg : forall P uu vv ww, Forall capped ww -> 0 <= weight_where P uu vv (map val ww).
Proof. intros P. induction uu as [|x uu IH]; intros [|y vv] [|w ww] H; cbn [weight_where map]; try lra.
  inversion_clear H as [|? ? [_ Hw] H']. specialize (IH vv ww H'). destruct (P x y); lra. Qed.

(** * C142 *)

Theorem C142_range : forall uu vv ww, Forall capped ww -> (Z.of_nat (length ww) <= 2 ^ 53)%Z ->
  let r := f_jaccard uu vv (Some ww) in
  fin r /\ 0 <= val r <= 1
  /\ (weight_where orb uu vv (map val ww) = 0 -> val r = 0)
  /\ (0 < weight_where orb uu vv (map val ww) ->
      exists q, up_to_roundings (2 * length ww) q (jaccard_of uu vv (map val ww)) /\ val r = nearest q).
Proof.
  intros uu vv ww HW HL r. unfold r, f_jaccard.
  pose proof (loop_main uu vv ww fzero fzero 0 0 0 0 HW eq_refl eq_refl) as M.
  assert (Z0 : val fzero = 0) by reflexivity. rewrite Z0 in M.
  assert (UR : up_to_roundings 0 0 0) by (unfold up_to_roundings; cbn [pow]; lra).
  specialize (M ltac:(lra) ltac:(lra) ltac:(lia) ltac:(lia) ltac:(lra) ltac:(lra) UR UR). cbv zeta in M. rewrite !Rplus_0_l in M. cbn [Nat.add] in M.
  set (s := jaccard_loop uu vv ww fzero fzero) in *. set (X := weight_where orb uu vv (map val ww)) in *. unfold jaccard_of. fold X.
  set (Y := weight_where xorb uu vv (map val ww)) in *.
  assert (PX : 0 <= X) by (apply weight_nonneg, HW). assert (PY : 0 <= Y) by (apply weight_nonneg, HW).
  destruct M as (F1 & F2 & H1 & H2 & [L1 U1] & [L2 U2]). pose proof (pow_1u (length ww)) as [Pf Qf].
  assert (PW : (1 - u) ^ (2 * length ww) = (1 - u) ^ length ww * (1 - u) ^ length ww) by (rewrite <- pow_add; f_equal; lia).
  unfold up_to_roundings. rewrite PW. set (f := (1 - u) ^ length ww) in *. clearbody f.
  pose proof (feq_zero (fst s) F1) as FZ. destruct (feq (fst s) fzero) eqn:Q.
  - assert (E : val (fst s) = 0) by (apply FZ; reflexivity). split; [reflexivity|]. rewrite Z0. split; [lra|]. split; [reflexivity|].
    intros PX'. exfalso. assert (0 < f * X) by (apply Rmult_lt_0_compat; assumption). lra.
  - assert (E : val (fst s) <> 0) by (intros E; apply FZ in E; discriminate).
    assert (P : 0 < val (fst s)) by lra.
    assert (R1 : 0 <= val (snd s) / val (fst s) <= 1).
    { split; [apply Rmult_le_pos; [lra | left; apply Rinv_0_lt_compat, P]|]. apply Rmult_le_reg_r with (val (fst s)); [exact P|].
      unfold Rdiv. rewrite Rmult_assoc, Rinv_l by lra. lra. }
    assert (N1 : 0 <= nearest (val (snd s) / val (fst s)) <= 1).
    { split; [rewrite <- nearest_0; apply nearest_le; lra | apply nearest_le_fmt; [change 1 with (bpow radix2 0); apply fmt_bpow; lia | lra]]. }
    destruct (fdiv_ok (snd s) (fst s) F2 F1 E) as (V & F & _).
    { rewrite Rabs_pos_eq by lra. apply Rle_lt_trans with (bpow radix2 0); [exact (proj2 N1) | apply bpow_lt; lia]. }
    split; [exact F|]. rewrite V. split; [exact N1|]. split.
    + intros E0. exfalso. rewrite E0 in U1. unfold Rdiv in U1. rewrite Rmult_0_l in U1. lra.
    + intros PX'. eexists. split; [|reflexivity]. assert (If : 0 < / f) by (apply Rinv_0_lt_compat, Pf).
      assert (IX : 0 < / X) by (apply Rinv_0_lt_compat, PX'). unfold Rdiv in *. rewrite Rinv_mult.
      assert (A : / val (fst s) <= / f * / X). { rewrite <- Rinv_mult. apply Rinv_le_contravar; [apply Rmult_lt_0_compat; assumption | exact L1]. }
      assert (B : f * / X <= / val (fst s)).
      { rewrite <- (Rinv_inv f). rewrite <- Rinv_mult. apply Rinv_le_contravar; [exact P|]. rewrite Rmult_comm. exact U1. }
      assert (IP : 0 < / val (fst s)) by (apply Rinv_0_lt_compat, P).
      split.
      * replace (f * f * (Y * / X)) with (f * Y * (f * / X)) by ring. apply Rmult_le_compat; try (apply Rmult_le_pos; lra); assumption.
      * replace (Y * / X * (/ f * / f)) with (Y * / f * (/ f * / X)) by ring. apply Rmult_le_compat; lra || assumption.
Qed.
Print Assumptions C142_range.

Lemma where_equal : forall uu ww, weight_where xorb uu uu ww = 0.
Proof. induction uu as [|x uu IH]; intros [|w ww]; cbn [weight_where]; try reflexivity. rewrite xorb_nilpotent, IH. lra. Qed.

(** A mask is at distance exactly 0 from itself. *)
Theorem C142_equal : forall uu ww, Forall capped ww -> (Z.of_nat (length ww) <= 2 ^ 53)%Z -> val (f_jaccard uu uu (Some ww)) = 0.
Proof. intros uu ww HW HL. destruct (C142_range uu uu ww HW HL) as (_ & _ & Z & P).
  destruct (weight_nonneg orb uu uu ww HW) as [L|E]; [|apply Z; symmetry; exact E].
  destruct (P L) as (q & [Q1 Q2] & ->). unfold jaccard_of in Q1, Q2. rewrite where_equal in Q1, Q2. unfold Rdiv in *. rewrite !Rmult_0_l, ?Rmult_0_r in *.
  replace q with 0 by lra. apply nearest_0. Qed.

Lemma loop_disjoint : forall uu vv ww s, Forall2 (fun a b => a && b = false)%bool uu vv ->
  fst (jaccard_loop uu vv ww s s) = snd (jaccard_loop uu vv ww s s).
Proof. intros uu vv ww s H. revert ww s. induction H as [|a b uu vv Hab H IH]; intros [|w ww] s; cbn [jaccard_loop]; try reflexivity.
  replace ((a || b) && negb (Bool.eqb a b))%bool with (a || b)%bool by (destruct a, b; try reflexivity; discriminate). apply IH. Qed.

(** Two masks with no common element are at distance exactly 1, unless all their weights are 0. *)
Theorem C142_disjoint : forall uu vv ww, Forall capped ww -> (Z.of_nat (length ww) <= 2 ^ 53)%Z ->
  Forall2 (fun a b => a && b = false)%bool uu vv -> 0 < weight_where orb uu vv (map val ww) -> val (f_jaccard uu vv (Some ww)) = 1.
Proof. intros uu vv ww HW HL HD HP. unfold f_jaccard. pose proof (loop_disjoint uu vv ww fzero HD) as E.
  pose proof (loop_main uu vv ww fzero fzero 0 0 0 0 HW eq_refl eq_refl) as M.
  assert (Z0 : val fzero = 0) by reflexivity. rewrite Z0 in M.
  assert (UR : up_to_roundings 0 0 0) by (unfold up_to_roundings; cbn [pow]; lra).
  specialize (M ltac:(lra) ltac:(lra) ltac:(lia) ltac:(lia) ltac:(lra) ltac:(lra) UR UR). cbv zeta in M. rewrite !Rplus_0_l in M. cbn [Nat.add] in M.
  destruct M as (F1 & F2 & _ & _ & [L _] & _). set (s := jaccard_loop uu vv ww fzero fzero) in *. rewrite <- E in *.
  pose proof (pow_1u (length ww)) as [Pf _]. assert (P : 0 < val (fst s)). { eapply Rlt_le_trans; [|exact L]. apply Rmult_lt_0_compat; assumption. }
  destruct (feq (fst s) fzero) eqn:Q; [apply feq_zero in Q; [lra | exact F1]|].
  assert (N : nearest (val (fst s) / val (fst s)) = 1).
  { unfold Rdiv. rewrite Rinv_r by lra. apply nearest_id. change 1 with (bpow radix2 0). apply fmt_bpow. lia. }
  destruct (fdiv_ok (fst s) (fst s) F1 F1) as (V & _); [lra | | rewrite V; exact N].
  rewrite N, Rabs_pos_eq by lra. change 1 with (bpow radix2 0). apply bpow_lt. lia. Qed.

Lemma loop_swap : forall uu vv ww s d, jaccard_loop uu vv ww s d = jaccard_loop vv uu ww s d.
Proof. induction uu as [|a uu IH]; intros [|b vv] [|w ww] s d; cbn [jaccard_loop]; try reflexivity.
  rewrite (orb_comm a b). replace (Bool.eqb a b) with (Bool.eqb b a) by (destruct a, b; reflexivity). apply IH. Qed.

(** Exactly symmetric, whatever the weights (NaN and infinite included). *)
Theorem C142_symmetric : forall uu vv weights, length uu = length vv -> f_jaccard uu vv weights = f_jaccard vv uu weights.
Proof. intros uu vv weights H. unfold f_jaccard. destruct weights as [ww|]; rewrite loop_swap; [|rewrite H]; reflexivity. Qed.
Print Assumptions C142_equal.
Print Assumptions C142_disjoint.
Print Assumptions C142_symmetric.

(** Weights 0.5, 0.25, 1: distance 0.25 / 1.75 rounded; and without the cap on the weights the sums overflow to a NaN distance. *)
Example C142_case : Forall capped [lit 1 (-1); lit 1 (-2); lit 1 0]
  /\ weight_where orb [true; true; false] [true; false; true] [/ 2; / 4; 1] = 7 / 4
  /\ f_jaccard [true; true; true] [true; false; true] (Some [lit 1 (-1); lit 1 (-2); lit 1 0]) = lit 2573485501354569 (-54)
  /\ f_jaccard [true; true; false] [false; false; true] (Some [lit 1 (-1); lit 1 (-2); lit 1 0]) = fone
  /\ f_jaccard [true; true] [false; false] (Some [lit 1 1023; lit 1 1023]) = B754_nan.
Proof.
  assert (C : forall m e, (Z.abs m < 2 ^ 53)%Z -> (-1074 <= e <= 0)%Z -> (0 <= m)%Z -> IZR m <= 2 ^ 900 -> capped (lit m e)).
  { intros m e Hm He Hp Hb. destruct (lit_ok m e Hm ltac:(lia)) as (V & F). split; [exact F|]. rewrite V. pose proof (bpow_ge_0 radix2 e).
    assert (bpow radix2 e <= 1) by (change 1 with (bpow radix2 0); apply bpow_le; lia). assert (0 <= IZR m) by (apply IZR_le; exact Hp). split; nra. }
  assert (1 <= 2 ^ 900) by (apply pow_R1_Rle; lra).
  split; [apply Forall_cons; [apply C; lia || lra|]; apply Forall_cons; [apply C; lia || lra|]; apply Forall_cons; [apply C; lia || lra | apply Forall_nil]|]. split; [cbn [weight_where orb]; lra|].
  split; [|split]; apply B2SF_inj; vm_compute; reflexivity.
Qed.

(** * C143 *)

Lemma fmt_nat : forall k, (0 <= k <= 2 ^ 53)%Z -> fmt (IZR k).
Proof. intros k Hk. destruct (Z.eq_dec k (2 ^ 53)) as [->|N]; [change (IZR (2 ^ 53)) with (bpow radix2 53); apply fmt_bpow; lia|].
  apply generic_format_FLT. exists (Float radix2 k 0); [unfold F2R; cbn; lra | cbn [Fnum]; change (Zpower radix2 53) with (2 ^ 53)%Z; lia | cbn; lia]. Qed.

Lemma count_step : forall s k b, fin s -> val s = IZR k -> (0 <= k < 2 ^ 53)%Z ->
  fin (fadd s (fmul fone (of_bool b))) /\ val (fadd s (fmul fone (of_bool b))) = IZR (k + (if b then 1 else 0)).
Proof. intros s k b F V H. destruct val_one as (V1 & F1). destruct (times_bool fone b F1) as (Vb & Fb).
  assert (E : nearest (val s + val (fmul fone (of_bool b))) = IZR (k + (if b then 1 else 0))).
  { rewrite V, Vb, V1. replace (IZR k + (if b then 1 else 0)) with (IZR (k + (if b then 1 else 0))) by (rewrite plus_IZR; destruct b; reflexivity).
    apply nearest_id, fmt_nat. destruct b; lia. }
  destruct (fadd_ok s _ F Fb) as (A & B); [|rewrite A; split; [exact B | exact E]].
  rewrite E, Rabs_pos_eq by (apply IZR_le; destruct b; lia). apply Rle_lt_trans with (bpow radix2 53); [change (bpow radix2 53) with (IZR (2 ^ 53)); apply IZR_le; destruct b; lia | apply bpow_lt; lia]. Qed.

Fixpoint zcount (P : bool -> bool -> bool) (uu vv : list bool) : Z :=
  match uu, vv with a :: uu, b :: vv => ((if P a b then 1 else 0) + zcount P uu vv)%Z | _, _ => 0%Z end.
Lemma zcount_range : forall P uu vv, (0 <= zcount P uu vv <= Z.of_nat (length uu))%Z.
Proof. intros P. induction uu as [|a uu IH]; intros [|b vv]; cbn [zcount length]; try lia. specialize (IH vv). destruct (P a b); lia. Qed.
Lemma zcount_filter : forall P uu vv, zcount P uu vv = Z.of_nat (length (filter (fun p => P (fst p) (snd p)) (combine uu vv))).
Proof. intros P. induction uu as [|a uu IH]; intros [|b vv]; cbn [zcount combine filter length]; try reflexivity. rewrite IH. cbn [fst snd].
  destruct (P a b); cbn [length]; lia. Qed.

Lemma loop_count : forall uu vv us ds i j, fin us -> fin ds -> val us = IZR i -> val ds = IZR j -> (0 <= i)%Z -> (0 <= j)%Z ->
  (i + Z.of_nat (length uu) <= 2 ^ 53)%Z -> (j + Z.of_nat (length uu) <= 2 ^ 53)%Z -> length uu = length vv ->
  let s := jaccard_loop uu vv (repeat fone (length uu)) us ds in
  fin (fst s) /\ fin (snd s) /\ val (fst s) = IZR (i + zcount orb uu vv) /\ val (snd s) = IZR (j + zcount xorb uu vv).
Proof.
  induction uu as [|a uu IH]; intros [|b vv] us ds i j F1 F2 V1 V2 P1 P2 L1 L2 HL; cbn [length] in *; try discriminate.
  - cbn [jaccard_loop repeat zcount fst snd]. rewrite !Z.add_0_r. repeat split; assumption.
  - cbn [jaccard_loop repeat zcount].
    replace ((a || b) && negb (Bool.eqb a b))%bool with (xorb a b) by (destruct a, b; reflexivity).
    destruct (count_step us i (a || b) F1 V1 ltac:(lia)) as (G1 & W1). destruct (count_step ds j (xorb a b) F2 V2 ltac:(lia)) as (G2 & W2).
    rewrite !Z.add_assoc. apply IH; try assumption; try (destruct (a || b)%bool, (xorb a b); lia).
Qed.

(** Without weights the computed distance is the double nearest to (elements in exactly one) / (elements in either): counts of up to 2^53 are exact. *)
Theorem C143_unweighted : forall uu vv, length uu = length vv -> (Z.of_nat (length uu) <= 2 ^ 53)%Z ->
  let either := length (filter (fun p => fst p || snd p)%bool (combine uu vv)) in
  let one := length (filter (fun p => xorb (fst p) (snd p)) (combine uu vv)) in
  let r := f_jaccard uu vv None in
  fin r /\ (either = 0%nat -> val r = 0) /\ (either <> 0%nat -> val r = nearest (INR one / INR either)).
Proof.
  intros uu vv HL HB either one r. unfold r, f_jaccard.
  pose proof (loop_count uu vv fzero fzero 0 0 eq_refl eq_refl eq_refl eq_refl ltac:(lia) ltac:(lia) ltac:(lia) ltac:(lia) HL) as M.
  cbv zeta in M. set (s := jaccard_loop uu vv (repeat fone (length uu)) fzero fzero) in *. destruct M as (F1 & F2 & V1 & V2).
  rewrite Z.add_0_l in V1, V2. rewrite zcount_filter in V1, V2. fold either in V1. fold one in V2. rewrite <- INR_IZR_INZ in V1, V2.
  assert (LE : (one <= either)%nat).
  { unfold one, either. clear. induction (combine uu vv) as [|[a b] l IH]; cbn [filter fst snd]; [lia|]. destruct a, b; cbn [orb xorb length]; lia. }
  pose proof (feq_zero (fst s) F1) as FZ. rewrite V1 in FZ. destruct (feq (fst s) fzero) eqn:Q.
  - split; [reflexivity|]. split; [reflexivity|]. intros N. exfalso. apply N. apply INR_eq. apply FZ. reflexivity.
  - assert (E : val (fst s) <> 0) by (rewrite V1; intros E; apply FZ in E; discriminate).
    assert (N : either <> 0%nat) by (intros N; apply E; rewrite V1, N; reflexivity).
    assert (P : 0 < INR either) by (apply lt_0_INR; lia).
    assert (R1 : 0 <= INR one / INR either <= 1).
    { split; [apply Rmult_le_pos; [apply pos_INR | left; apply Rinv_0_lt_compat, P]|]. apply Rmult_le_reg_r with (INR either); [exact P|].
      unfold Rdiv. rewrite Rmult_assoc, Rinv_l, Rmult_1_r, Rmult_1_l by lra. apply le_INR, LE. }
    destruct (fdiv_ok (snd s) (fst s) F2 F1 E) as (V & F & _).
    { rewrite V1, V2. apply no_overflow. rewrite Rabs_pos_eq by lra. apply Rle_trans with 1; [lra|]. unfold huge. apply pow_R1_Rle. lra. }
    split; [exact F|]. split; [intros X; contradiction|]. intros _. rewrite V, V1, V2. reflexivity.
Qed.
Print Assumptions C143_unweighted.

Example C143_case : f_jaccard [true; true; false; true] [true; false; false; true] None = lit 6004799503160661 (-54)
  /\ length (filter (fun p => fst p || snd p)%bool (combine [true; true; false; true] [true; false; false; true])) = 3%nat.
Proof. split; [apply B2SF_inj; vm_compute|]; reflexivity. Qed.
