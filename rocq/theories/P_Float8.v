(** C173: clustering coefficients in the single-precision arithmetic of the code. *)
From Coq Require Import ZArith Reals List Bool Lia Lra.
From Flocq Require Import Core BinarySingleNaN Relative.
From Verif Require Import Prelude Keys SpecIEEE Floats FloatBase SpecDist DeltaR DeltaRProofs P_DeltaR Floats4.
Import ListNotations.
Open Scope R_scope.

(** The number a finite float32 stands for, and the float32 nearest to a real (ties to even, overflow aside). *)
Definition sval (x : f32) : R := B2R x.
Definition sfin (x : f32) : Prop := is_finite x = true.
Definition near32 (x : R) : R := round radix2 (FLT_exp (-149) 24) ZnearestE x.

(** A boolean adjacency matrix with [n] rows and columns and no self links, as cluster_coeff_distbn builds it (calculate.py 387-388). *)
Definition simple_graph (n : nat) (adj : list (list bool)) : Prop :=
  length adj = n /\ (forall row, In row adj -> length row = n) /\ (forall i, adj_at adj i i = false).

#[local] Instance p24 : Prec_gt_0 24 := eq_refl.
Lemma near32_le x y : x <= y -> near32 x <= near32 y.
Proof. intros H. apply round_le; [apply FLT_exp_valid; reflexivity | apply valid_rnd_N | exact H]. Qed.
Lemma near32_id x : generic_format radix2 (FLT_exp (-149) 24) x -> near32 x = x.
Proof. intros H. apply round_generic; [apply valid_rnd_N | exact H]. Qed.
Lemma fmt32_int k e : (Z.abs k < 2 ^ 24)%Z -> (-149 <= e)%Z -> generic_format radix2 (FLT_exp (-149) 24) (IZR k * bpow radix2 e).
Proof. intros Hk He. apply generic_format_FLT. exists (Float radix2 k e); [reflexivity | exact Hk | exact He]. Qed.
Lemma fmt32_nat k : (0 <= k <= 2 ^ 24)%Z -> generic_format radix2 (FLT_exp (-149) 24) (IZR k).
Proof.
  intros H. destruct (Z.eq_dec k (2 ^ 24)) as [->|N].
  - replace (IZR (2 ^ 24)) with (IZR 1 * bpow radix2 24) by (cbn; lra). apply fmt32_int; lia.
  - replace (IZR k) with (IZR k * bpow radix2 0) by (cbn; ring). apply fmt32_int; lia.
Qed.
Lemma near32_0 : near32 0 = 0.
Proof. apply near32_id. apply (fmt32_nat 0). lia. Qed.
Lemma near32_1 : near32 1 = 1.
Proof. apply near32_id. apply (fmt32_nat 1). lia. Qed.
Lemma near32_closest x y : generic_format radix2 (FLT_exp (-149) 24) y -> Rabs (near32 x - x) <= Rabs (y - x).
Proof. intros H. destruct (round_N_pt radix2 (FLT_exp (-149) 24) (fun t => negb (Z.even t)) x) as (_ & Q). exact (Q _ H). Qed.
Lemma near32_err x : Rabs (near32 x - x) <= / 2 ^ 24 * Rabs x + / 2 ^ 150.
Proof.
  destruct (error_N_FLT radix2 (-149) 24 eq_refl (fun t => negb (Z.even t)) x) as (e & h & He & Hh & _ & E). fold (near32 x) in E. rewrite E.
  replace (x * (1 + e) + h - x) with (x * e + h) by ring. eapply Rle_trans; [apply Rabs_triang|]. apply Rplus_le_compat.
  - rewrite Rabs_mult, Rmult_comm. apply Rmult_le_compat_r; [apply Rabs_pos|]. eapply Rle_trans; [exact He|]. unfold u_ro. cbn. lra.
  - eapply Rle_trans; [exact Hh|]. change (bpow radix2 (-149)) with (/ IZR (Z.pow_pos 2 149)).
    replace (IZR (Z.pow_pos 2 149)) with (2 ^ 149) by (rewrite pow_IZR; reflexivity). replace (2 ^ 150) with (2 * 2 ^ 149) by (cbn [pow]; ring).
    rewrite Rinv_mult. lra.
Qed.

(** * Counting in float32 *)

Lemma slit_ok m e : (Z.abs m < 2 ^ 24)%Z -> (-149 <= e <= 104)%Z ->
  B2R (@binary_normalize 24 128 prec32_pos prec32_emax mode_NE m e false) = IZR m * bpow radix2 e.
Proof.
  intros Hm He. pose proof (binary_normalize_correct 24 128 prec32_pos prec32_emax mode_NE m e false) as C.
  cbv zeta in C. change (round radix2 (SpecFloat.fexp 24 128) (round_mode mode_NE) (F2R {| Fnum := m; Fexp := e |})) with (near32 (IZR m * bpow radix2 e)) in C.
  rewrite near32_id in C by (apply fmt32_int; lia). rewrite Rlt_bool_true in C; [apply C|].
  change (IZR m * bpow radix2 e) with (F2R (Float radix2 m e)). rewrite <- F2R_Zabs. apply Rlt_le_trans with (F2R (Float radix2 (2 ^ 24) e)).
  - apply F2R_lt. exact Hm.
  - change (2 ^ 24)%Z with (Zpower radix2 24). unfold F2R. cbn [Fnum Fexp]. rewrite IZR_Zpower by lia. rewrite <- bpow_plus. apply bpow_le. lia.
Qed.
Lemma one32 : sval (s_of_bool true) = 1 /\ sfin (s_of_bool true).
Proof. split; [|reflexivity]. unfold sval, s_of_bool. rewrite slit_ok by lia. cbn. ring. Qed.

Lemma sadd_ok x y : sfin x -> sfin y -> Rabs (near32 (sval x + sval y)) < bpow radix2 128 -> sval (sadd x y) = near32 (sval x + sval y) /\ sfin (sadd x y).
Proof.
  intros Hx Hy H. pose proof (Bplus_correct 24 128 prec32_pos prec32_emax mode_NE x y Hx Hy) as C.
  change (round radix2 (SpecFloat.fexp 24 128) (round_mode mode_NE) (B2R x + B2R y)) with (near32 (sval x + sval y)) in C.
  rewrite Rlt_bool_true in C by exact H. destruct C as (A & B & _). split; assumption.
Qed.
Lemma near32_full : near32 (IZR (2 ^ 24) + 1) = IZR (2 ^ 24).
Proof.
  pose (x := @binary_normalize 24 128 prec32_pos prec32_emax mode_NE 1 24 false).
  assert (Vx : sval x = IZR (2 ^ 24)) by (unfold sval, x; rewrite slit_ok by lia; cbn; lra).
  assert (E : sadd x (s_of_bool true) = x) by (apply B2SF_inj; vm_compute; reflexivity).
  destruct one32 as (V1 & F1). pose proof (Bplus_correct 24 128 prec32_pos prec32_emax mode_NE x (s_of_bool true) eq_refl eq_refl) as C.
  change (round radix2 (SpecFloat.fexp 24 128) (round_mode mode_NE) (B2R x + B2R (s_of_bool true))) with (near32 (sval x + sval (s_of_bool true))) in C.
  rewrite Vx, V1 in C. rewrite Rlt_bool_true in C.
  - destruct C as (A & _). change (Bplus mode_NE x (s_of_bool true)) with (sadd x (s_of_bool true)) in A. rewrite E in A. fold (sval x) in A. rewrite Vx in A. symmetry. exact A.
  - assert (B : 0 <= near32 (IZR (2 ^ 24) + 1) <= IZR (2 ^ 25)); [|rewrite Rabs_pos_eq by lra; eapply Rle_lt_trans; [apply B|]; change (IZR (2 ^ 25)) with (bpow radix2 25); apply bpow_lt; lia].
    split; [rewrite <- near32_0 | replace (IZR (2 ^ 25)) with (near32 (IZR (2 ^ 25)))]; try (apply near32_le; cbn; lra).
    apply near32_id. replace (IZR (2 ^ 25)) with (IZR 1 * bpow radix2 25) by (cbn; lra). apply fmt32_int; lia.
Qed.

(** The count is exact up to 2^24 and stays there for ever after. *)
Definition count (l : list bool) : Z := Z.of_nat (length (filter (fun b => b) l)).
Lemma count_step c k b : sfin c -> (0 <= k)%Z -> sval c = IZR (Z.min k (2 ^ 24)) ->
  sfin (sadd c (s_of_bool b)) /\ sval (sadd c (s_of_bool b)) = IZR (Z.min (k + (if b then 1 else 0)) (2 ^ 24)).
Proof.
  intros F Hk V. assert (BIG : forall z, (0 <= z <= 2 ^ 24)%Z -> Rabs (IZR z) < bpow radix2 128).
  { intros z Hz. rewrite Rabs_pos_eq by (apply IZR_le; lia). apply Rle_lt_trans with (bpow radix2 24); [change (bpow radix2 24) with (IZR (2 ^ 24)); apply IZR_le; lia | apply bpow_lt; lia]. }
  assert (E : near32 (sval c + sval (s_of_bool b)) = IZR (Z.min (k + (if b then 1 else 0)) (2 ^ 24))).
  { rewrite V. destruct b.
    - rewrite (proj1 one32). destruct (Z_lt_le_dec k (2 ^ 24)) as [L|L].
      + rewrite !Z.min_l by lia. rewrite <- plus_IZR. apply near32_id, fmt32_nat. lia.
      + rewrite !Z.min_r by lia. apply near32_full.
    - change (sval (s_of_bool false)) with 0. rewrite Rplus_0_r, Z.add_0_r. apply near32_id, fmt32_nat. lia. }
  assert (Fb : sfin (s_of_bool b)) by (destruct b; reflexivity).
  destruct (sadd_ok c (s_of_bool b) F Fb) as (A & B); [rewrite E; apply BIG; destruct b; lia|]. split; [exact B | rewrite A; exact E].
Qed.
Lemma s_count_ok l : sfin (s_count l) /\ sval (s_count l) = IZR (Z.min (count l) (2 ^ 24)).
Proof.
  unfold s_count. assert (G : forall l c k, sfin c -> (0 <= k)%Z -> sval c = IZR (Z.min k (2 ^ 24)) ->
    sfin (fold_left (fun c b => sadd c (s_of_bool b)) l c) /\ sval (fold_left (fun c b => sadd c (s_of_bool b)) l c) = IZR (Z.min (k + count l) (2 ^ 24))).
  { clear. induction l as [|b l IH]; intros c k F Hk V; [cbn [fold_left]; unfold count; cbn [filter length]; rewrite Z.add_0_r; auto|].
    destruct (count_step c k b F Hk V) as (F' & V'). cbn [fold_left]. destruct (IH _ (k + (if b then 1 else 0))%Z F' ltac:(destruct b; lia) V') as (A & B).
    split; [exact A|]. rewrite B. do 2 f_equal. unfold count. cbn [filter]. destruct b; cbn [length]; lia. }
  destruct (G l (B754_zero false) 0%Z eq_refl ltac:(lia)) as (A & B); [reflexivity|]. split; [exact A | rewrite B; reflexivity].
Qed.

(** * Conversions *)

Lemma widen_ok x k : sfin x -> sval x = IZR k -> (Z.abs k < 2 ^ 53)%Z -> val (widen x) = IZR k /\ fin (widen x).
Proof.
  intros F V Hk. destruct x as [s|s| |s m e Hb]; try discriminate; [split; [exact V | reflexivity]|].
  unfold widen. pose proof (binary_normalize_correct 53 1024 prec_pos prec_emax mode_NE (cond_Zopp s (Zpos m)) e s) as C. cbv zeta in C.
  change (F2R {| Fnum := cond_Zopp s (Z.pos m); Fexp := e |}) with (sval (B754_finite s m e Hb)) in C. rewrite V in C.
  repeat match type of C with context [round ?b ?f ?r ?x] => change (round b f r x) with (nearest x) in C end.
  destruct (lit_int k Hk) as (L1 & L2). rewrite <- L1 in C. rewrite (nearest_id _ (val_fmt _)) in C. rewrite Rlt_bool_true in C by apply val_lt.
  destruct C as (A & B & _). split; [rewrite <- L1; exact A | exact B].
Qed.
Lemma narrow_ok x : fin x -> Rabs (val x) <= 1 -> sval (narrow x) = near32 (val x) /\ sfin (narrow x).
Proof.
  intros F B1. destruct x as [s|s| |s m e Hb]; try discriminate; [split; [symmetry; apply near32_0 | reflexivity]|].
  unfold narrow. pose proof (binary_normalize_correct 24 128 prec32_pos prec32_emax mode_NE (cond_Zopp s (Zpos m)) e s) as C. cbv zeta in C.
  change (F2R {| Fnum := cond_Zopp s (Z.pos m); Fexp := e |}) with (val (B754_finite s m e Hb)) in C. set (x := B754_finite s m e Hb) in *.
  change (round radix2 (SpecFloat.fexp 24 128) (round_mode mode_NE) (val x)) with (near32 (val x)) in C.
  rewrite Rlt_bool_true in C; [destruct C as (A & B & _); split; [exact A | exact B]|].
  apply Rle_lt_trans with 1; [|change 1 with (bpow radix2 0); apply bpow_lt; lia].
  assert (H1 : near32 (val x) <= 1) by (rewrite <- near32_1; apply near32_le; apply Rabs_le_inv in B1; lra).
  assert (H2 : -1 <= near32 (val x)).
  { replace (-1) with (near32 (-1)); [apply near32_le; apply Rabs_le_inv in B1; lra|]. apply near32_id. replace (-1) with (IZR (-1) * bpow radix2 0) by (cbn; lra). apply fmt32_int; lia. }
  apply Rabs_le. lra.
Qed.

(** * The coefficient *)

Lemma fmt_1 : fmt 1.
Proof. change 1 with (bpow radix2 0). apply fmt_bpow. lia. Qed.
(** [p] links counted out of [d] pairs, [p <= d]. *)
Lemma quotient_ok c p d : sfin c -> sval c = IZR p -> (0 <= p <= d)%Z -> (0 < d < 2 ^ 53)%Z ->
  sfin (narrow (fdiv (widen c) (lit d 0))) /\ sval (narrow (fdiv (widen c) (lit d 0))) = near32 (nearest (IZR p / IZR d)) /\ 0 <= IZR p / IZR d <= 1.
Proof.
  intros F V Hp Hd. destruct (widen_ok c p F V ltac:(lia)) as (W1 & W2). destruct (lit_int d ltac:(lia)) as (L1 & L2).
  assert (D : 0 < IZR d) by (apply IZR_lt; lia). assert (P : 0 <= IZR p) by (apply IZR_le; lia). assert (PD : IZR p <= IZR d) by (apply IZR_le; lia).
  assert (Q : 0 <= IZR p / IZR d <= 1).
  { split; [apply Rmult_le_pos; [exact P | left; apply Rinv_0_lt_compat, D]|]. apply Rmult_le_reg_r with (IZR d); [exact D|]. unfold Rdiv. rewrite Rmult_assoc, Rinv_l by lra. lra. }
  assert (N : 0 <= nearest (IZR p / IZR d) <= 1) by (split; [apply nearest_ge_fmt; [apply generic_format_0 | apply Q] | apply nearest_le_fmt; [apply fmt_1 | apply Q]]).
  destruct (fdiv_ok (widen c) (lit d 0) W2 L2) as (A & B & _); [rewrite L1; lra | rewrite W1, L1, Rabs_pos_eq by apply N; apply Rle_lt_trans with 1; [apply N | change 1 with (bpow radix2 0); apply bpow_lt; lia]|].
  rewrite W1, L1 in A. destruct (narrow_ok (fdiv (widen c) (lit d 0)) B) as (S1 & S2); [rewrite A, Rabs_pos_eq by apply N; apply N|].
  split; [exact S2|]. split; [rewrite S1, A; reflexivity | exact Q].
Qed.

Lemma round_frac_err q : 0 <= q <= 1 -> Rabs (near32 (nearest q) - q) <= / 2 ^ 23 /\ 0 <= near32 (nearest q) <= 1.
Proof.
  intros Q. assert (N : 0 <= nearest q <= 1) by (split; [apply nearest_ge_fmt; [apply generic_format_0 | apply Q] | apply nearest_le_fmt; [apply fmt_1 | apply Q]]).
  split; [|split; [rewrite <- near32_0 | rewrite <- near32_1]; apply near32_le, N].
  pose proof (near32_err (nearest q)) as E1. pose proof (nearest_err_any q) as E2. rewrite (Rabs_pos_eq (nearest q)) in E1 by apply N. rewrite (Rabs_pos_eq q) in E2 by apply Q.
  assert (M : min_normal <= 1) by (unfold min_normal; rewrite <- Rinv_1; apply Rinv_le_contravar; [lra | apply pow_R1_Rle; lra]).
  assert (M0 : 0 < min_normal) by (unfold min_normal; apply Rinv_0_lt_compat, pow_lt; lra).
  assert (U : u <= / 1000000000000000) by apply u_small. pose proof u_pos as U0.
  assert (K : / 2 ^ 150 <= / 2 ^ 50) by (apply Rinv_le_contravar; [apply pow_lt; lra | apply Rle_pow; [lra | lia]]).
  replace (near32 (nearest q) - q) with ((near32 (nearest q) - nearest q) + (nearest q - q)) by ring. eapply Rle_trans; [apply Rabs_triang|].
  assert (A1 : Rabs (near32 (nearest q) - nearest q) <= / 2 ^ 24 + / 2 ^ 50).
  { eapply Rle_trans; [exact E1|]. apply Rplus_le_compat; [|exact K]. rewrite <- (Rmult_1_r (/ 2 ^ 24)) at 2. apply Rmult_le_compat_l; [left; apply Rinv_0_lt_compat, pow_lt; lra | apply N]. }
  assert (A2 : Rabs (nearest q - q) <= 2 * / 1000000000000000).
  { eapply Rle_trans; [exact E2|]. assert (u * q <= u * 1) by (apply Rmult_le_compat_l; lra). assert (u * min_normal <= u * 1) by (apply Rmult_le_compat_l; lra). lra. }
  cbn [pow] in *. lra.
Qed.

(** The model's neighbours and links are the specification's. *)
Lemma neighbours_ok n adj i : simple_graph n adj -> (i < n)%nat -> positions (nth i adj []) = neighbours n (adj_at adj) i.
Proof.
  intros (L & R & D) Hi. assert (Lr : length (nth i adj []) = n) by (apply R, nth_In; lia).
  rewrite positions_filter, Lr. unfold neighbours. apply filter_ext. intros j. change (nth j (nth i adj []) false) with (adj_at adj i j).
  destruct (Nat.eqb_spec i j) as [->|N]; [rewrite D; reflexivity | reflexivity].
Qed.
Lemma links_ok n adj nb : simple_graph n adj ->
  count (map (fun ab => adj_at adj (fst ab) (snd ab)) (list_prod nb nb)) = Z.of_nat (length (linked_pairs (adj_at adj) nb)).
Proof.
  intros (_ & _ & D). unfold count, linked_pairs. f_equal. induction (list_prod nb nb) as [|(a, b) l IH]; [reflexivity|]. cbn [map filter fst snd].
  destruct (Nat.eqb_spec a b) as [->|N]; [rewrite D; cbn; exact IH|]. cbn [negb andb]. destruct (adj_at adj a b); cbn [length]; lia.
Qed.

(** What is computed, with [p] links out of [d] ordered pairs of neighbours: the nearest double to min(p, 2^24) / d, then the nearest float32. *)
Lemma coeff_value n adj i : simple_graph n adj -> (Z.of_nat n <= 2 ^ 26)%Z -> (i < n)%nat ->
  let nb := neighbours n (adj_at adj) i in
  (2 <= length nb)%nat ->
  let p := Z.of_nat (length (linked_pairs (adj_at adj) nb)) in
  let d := (Z.of_nat (length nb) * (Z.of_nat (length nb) - 1))%Z in
  (0 <= p <= d)%Z /\ (0 < d < 2 ^ 53)%Z /\ sfin (f_clust_coeff adj i) /\ sval (f_clust_coeff adj i) = near32 (nearest (IZR (Z.min p (2 ^ 24)) / IZR d)).
Proof.
  intros G Hn Hi nb H2 p d. assert (ND : NoDup nb) by (apply NoDup_filter, seq_NoDup).
  assert (LN : (length nb <= n)%nat). { unfold nb, neighbours. rewrite <- (seq_length n 0) at 2. generalize (seq 0 n). intros l. induction l as [|x l IH]; [cbn; lia|]. cbn [filter]. destruct (_ && _)%bool; cbn [length]; lia. }
  pose proof (pairs_bound (adj_at adj) nb ND) as PB. assert (Ed : d = Z.of_nat (length nb * (length nb - 1))) by (unfold d; lia).
  assert (Hp : (0 <= p <= d)%Z) by (unfold p; lia).
  assert (Hd : (0 < d < 2 ^ 53)%Z). { unfold d. split; [apply Z.mul_pos_pos; lia|]. apply Z.le_lt_trans with (2 ^ 26 * 2 ^ 26)%Z; [apply Z.mul_le_mono_nonneg; lia | reflexivity]. }
  split; [exact Hp|]. split; [exact Hd|]. unfold f_clust_coeff. rewrite (neighbours_ok n adj i G Hi). fold nb. cbv zeta. destruct (Nat.ltb_spec (length nb) 2) as [L|_]; [lia|].
  destruct (s_count_ok (map (fun ab => adj_at adj (fst ab) (snd ab)) (list_prod nb nb))) as (F & V). rewrite (links_ok n adj nb G) in V. fold p in V. fold d.
  destruct (quotient_ok _ _ d F V) as (A & B & _); [lia | exact Hd|]. split; assumption.
Qed.
Lemma coeff_few n adj i : simple_graph n adj -> (i < n)%nat -> (length (neighbours n (adj_at adj) i) < 2)%nat -> f_clust_coeff adj i = B754_zero false.
Proof. intros G Hi L. unfold f_clust_coeff. rewrite (neighbours_ok n adj i G Hi). cbv zeta. destruct (Nat.ltb_spec (length (neighbours n (adj_at adj) i)) 2) as [_|N]; [reflexivity | lia]. Qed.

Lemma below_one q : 0 <= q <= 16777216 / 16777217 -> near32 (nearest q) < 1.
Proof.
  intros Q. pose (y := IZR (2 ^ 30 - 2 ^ 6 + 1) * bpow radix2 (-30)).
  assert (Fy : fmt y). { apply generic_format_FLT. exists (Float radix2 (2 ^ 30 - 2 ^ 6 + 1) (-30)); [reflexivity | reflexivity | discriminate]. }
  assert (Vy : y = 1073741761 / 1073741824) by (unfold y; cbn; lra).
  assert (N : nearest q <= y) by (apply nearest_le_fmt; [exact Fy | rewrite Vy; lra]).
  apply Rle_lt_trans with (near32 y); [apply near32_le, N|].
  pose proof (near32_closest y (IZR (2 ^ 24 - 1) * bpow radix2 (-24)) ltac:(apply fmt32_int; lia)) as C.
  replace (IZR (2 ^ 24 - 1) * bpow radix2 (-24)) with (16777215 / 16777216) in C by (cbn; lra). rewrite Vy in *.
  rewrite (Rabs_left1 (16777215 / 16777216 - _)) in C by lra. apply Rabs_le_inv in C. lra.
Qed.
Lemma above_zero q : / 2 ^ 53 <= q -> 0 < near32 (nearest q).
Proof.
  intros Q. assert (B : / 2 ^ 53 = bpow radix2 (-53)) by (rewrite <- (bpow_neg_pow 53); reflexivity).
  apply Rlt_le_trans with (bpow radix2 (-53)); [apply bpow_gt_0|]. replace (bpow radix2 (-53)) with (near32 (bpow radix2 (-53))).
  - apply near32_le. apply nearest_ge_fmt; [apply fmt_bpow; lia | lra].
  - apply near32_id. replace (bpow radix2 (-53)) with (IZR 1 * bpow radix2 (-53)) by ring. apply fmt32_int; lia.
Qed.

(** C173: as long as no particle has more than 2^24 linked pairs of neighbours (up to 4096 neighbours never have), the float32 coefficient is the
    fraction of linked pairs to 2^-23, within [0, 1], and exactly 1 (0) just when all (none) of the pairs are linked. *)
Theorem C173_coefficient : forall n adj i, simple_graph n adj -> (Z.of_nat n <= 2 ^ 26)%Z -> (i < n)%nat ->
  let nb := neighbours n (adj_at adj) i in
  let links := length (linked_pairs (adj_at adj) nb) in
  let pairs := (length nb * (length nb - 1))%nat in
  (Z.of_nat links <= 2 ^ 24)%Z ->
  exists c, nth_error (f_clust_coeffs adj) i = Some c /\ sfin c /\ 0 <= sval c <= 1 /\
    ((length nb < 2)%nat -> sval c = 0) /\
    ((2 <= length nb)%nat -> Rabs (sval c - INR links / INR pairs) <= / 2 ^ 23 /\ (sval c = 1 <-> links = pairs) /\ (sval c = 0 <-> links = 0%nat)).
Proof.
  intros n adj i G Hn Hi nb links pairs HL. exists (f_clust_coeff adj i). assert (LA : length adj = n) by apply G.
  split. { unfold f_clust_coeffs. rewrite nth_error_map', seq_nth_error, LA. destruct (Nat.ltb_spec i n); [reflexivity | lia]. }
  destruct (Nat.ltb_spec (length nb) 2) as [L|L].
  - rewrite (coeff_few n adj i G Hi L). change (sval (B754_zero false)) with 0. split; [reflexivity|]. split; [lra|]. split; [reflexivity|]. intros L'. lia.
  - destruct (coeff_value n adj i G Hn Hi L) as (Hp & Hd & F & V). fold nb in Hp, Hd, V. fold links in Hp, V. rewrite Z.min_l in V by exact HL.
    assert (Ed : (Z.of_nat (length nb) * (Z.of_nat (length nb) - 1))%Z = Z.of_nat pairs) by (unfold pairs; lia). rewrite Ed in *. rewrite <- !INR_IZR_INZ in V.
    assert (D : 0 < INR pairs) by (apply lt_0_INR; lia). set (q := INR links / INR pairs) in *.
    assert (EQ : q * INR pairs = INR links) by (unfold q; field; lra).
    assert (LE : INR links <= INR pairs) by (apply le_INR; lia). pose proof (pos_INR links) as PL.
    assert (Q : 0 <= q <= 1). { split; [apply Rmult_le_pos; [exact PL | left; apply Rinv_0_lt_compat, D]|]. apply Rmult_le_reg_r with (INR pairs); [exact D | lra]. }
    destruct (round_frac_err q Q) as (E & B). rewrite <- V in E, B. split; [exact F|]. split; [exact B|]. split; [intros; lia|]. intros _. split; [exact E|]. split.
    + split.
      * intros H1. destruct (Nat.eq_dec links pairs) as [Eq|Nq]; [exact Eq|]. exfalso. assert (LT : INR links + 1 <= INR pairs) by (rewrite <- S_INR; apply le_INR; lia).
        assert (HL' : INR links <= 16777216) by (rewrite INR_IZR_INZ; apply IZR_le; exact HL).
        assert (Hq : q <= 16777216 / 16777217). { apply Rmult_le_reg_r with (INR pairs); [exact D|]. rewrite EQ. lra. }
        pose proof (below_one q ltac:(lra)). lra.
      * intros Eq. rewrite V. assert (Q1 : q = 1) by (unfold q; rewrite Eq; field; lra). rewrite Q1, (nearest_id 1 fmt_1). apply near32_1.
    + split.
      * intros H0. destruct links as [|k] eqn:Ek; [reflexivity|]. exfalso. rewrite S_INR in *. pose proof (pos_INR k).
        assert (Hq : / 2 ^ 53 <= q). { apply Rmult_le_reg_r with (INR pairs); [exact D|]. rewrite EQ. apply Rle_trans with 1; [|lra]. apply Rmult_le_reg_l with (2 ^ 53); [apply pow_lt; lra|].
          rewrite <- Rmult_assoc, Rinv_r by (apply pow_nonzero; lra). rewrite Rmult_1_l, Rmult_1_r, INR_IZR_INZ, pow_IZR. apply IZR_le. change (Z.of_nat 53) with 53%Z. lia. }
        pose proof (above_zero q Hq). lra.
      * intros E0. rewrite V. assert (Q0 : q = 0) by (unfold q; rewrite E0; cbn; unfold Rdiv; ring). rewrite Q0, nearest_0. apply near32_0.
Qed.

(** Beyond 2^24 links the count stops growing. *)
Theorem C187_saturation_partial : forall n adj i, simple_graph n adj -> (Z.of_nat n <= 2 ^ 26)%Z -> (i < n)%nat ->
  let nb := neighbours n (adj_at adj) i in
  let links := length (linked_pairs (adj_at adj) nb) in
  let pairs := (length nb * (length nb - 1))%nat in
  (2 ^ 24 <= Z.of_nat links)%Z ->
  exists c, nth_error (f_clust_coeffs adj) i = Some c /\ Rabs (sval c - 2 ^ 24 / INR pairs) <= / 2 ^ 23.
Proof.
  intros n adj i G Hn Hi nb links pairs HL. exists (f_clust_coeff adj i). assert (LA : length adj = n) by apply G.
  split. { unfold f_clust_coeffs. rewrite nth_error_map', seq_nth_error, LA. destruct (Nat.ltb_spec i n); [reflexivity | lia]. }
  assert (ND : NoDup nb) by (apply NoDup_filter, seq_NoDup). pose proof (pairs_bound (adj_at adj) nb ND) as PB. fold links pairs in PB.
  assert (L : (2 <= length nb)%nat). { destruct (Nat.le_gt_cases 2 (length nb)) as [|L]; [assumption|]. exfalso. assert (pairs = 0)%nat by (unfold pairs; destruct (length nb) as [|[|k]]; lia). lia. }
  destruct (coeff_value n adj i G Hn Hi L) as (Hp & Hd & F & V). fold nb in Hp, Hd, V. fold links in Hp, V. rewrite Z.min_r in V by exact HL.
  assert (Ed : (Z.of_nat (length nb) * (Z.of_nat (length nb) - 1))%Z = Z.of_nat pairs) by (unfold pairs; lia). rewrite Ed in *. rewrite <- INR_IZR_INZ in V.
  assert (D : 0 < INR pairs) by (apply lt_0_INR; lia). rewrite V. replace (IZR (2 ^ 24)) with (2 ^ 24) by (rewrite pow_IZR; reflexivity). apply round_frac_err.
  assert (HP : 2 ^ 24 <= INR pairs) by (rewrite INR_IZR_INZ, pow_IZR; apply IZR_le; change (Z.of_nat 24) with 24%Z; lia).
  assert (P24 : 0 < 2 ^ 24) by (apply pow_lt; lra).
  split; [apply Rmult_le_pos; [lra | left; apply Rinv_0_lt_compat, D]|]. apply Rmult_le_reg_r with (INR pairs); [exact D|]. unfold Rdiv. rewrite Rmult_assoc, Rinv_l by lra. lra.
Qed.

(** All [n] particles within the radius of one another. *)
Definition complete (n : nat) : list (list bool) := map (fun i => map (fun j => negb (Nat.eqb i j)) (seq 0 n)) (seq 0 n).
Lemma complete_at n i j : adj_at (complete n) i j = (Nat.ltb i n && Nat.ltb j n && negb (Nat.eqb i j))%bool.
Proof.
  unfold adj_at, complete. destruct (Nat.ltb_spec i n) as [Hi|Hi]; [|rewrite (nth_overflow _ []) by (rewrite map_length, seq_length; lia); destruct j; reflexivity].
  rewrite (nth_indep _ [] (map (fun j => negb (Nat.eqb (n + 1) j)) (seq 0 n))) by (rewrite map_length, seq_length; exact Hi).
  rewrite (map_nth (fun i => map (fun j => negb (Nat.eqb i j)) (seq 0 n)) (seq 0 n) (n + 1)%nat i), seq_nth by exact Hi.
  destruct (Nat.ltb_spec j n) as [Hj|Hj]; [|apply nth_overflow; rewrite map_length, seq_length; lia].
  rewrite (nth_indep _ false (negb (Nat.eqb (0 + i) (n + 1)))) by (rewrite map_length, seq_length; exact Hj).
  rewrite (map_nth (fun j => negb (Nat.eqb (0 + i) j)) (seq 0 n) (n + 1)%nat j), seq_nth by exact Hj. reflexivity.
Qed.
Lemma complete_simple n : simple_graph n (complete n).
Proof.
  split; [unfold complete; rewrite map_length; apply seq_length|]. split.
  - intros row H. unfold complete in H. apply in_map_iff in H as (i & <- & _). rewrite map_length. apply seq_length.
  - intros i. rewrite complete_at, Nat.eqb_refl. destruct (Nat.ltb i n); reflexivity.
Qed.
Lemma filter_neq : forall l i, NoDup l -> In i l -> length (filter (fun j => negb (Nat.eqb i j)) l) = (length l - 1)%nat.
Proof.
  intros l i ND H. apply in_split in H as (a & b & ->). apply NoDup_remove_2 in ND. rewrite filter_app. cbn [filter]. rewrite Nat.eqb_refl. cbn [negb]. rewrite !app_length. cbn [length].
  assert (F : forall l, ~ In i l -> filter (fun j => negb (Nat.eqb i j)) l = l).
  { clear. induction l as [|x l IH]; intros H; [reflexivity|]. cbn [filter]. destruct (Nat.eqb_spec i x) as [->|N]; [exfalso; apply H; left; reflexivity|]. cbn [negb]. rewrite IH; [reflexivity | intros I; apply H; right; exact I]. }
  rewrite !F by (intros I; apply ND, in_or_app; auto). lia.
Qed.
Lemma complete_neighbours n i : (i < n)%nat -> length (neighbours n (adj_at (complete n)) i) = (n - 1)%nat.
Proof.
  intros Hi. unfold neighbours. rewrite (filter_ext_in _ (fun j => negb (Nat.eqb i j))).
  - rewrite filter_neq; [rewrite seq_length; reflexivity | apply seq_NoDup | apply in_seq; lia].
  - intros j Hj. apply in_seq in Hj. rewrite complete_at. destruct (Nat.ltb_spec i n); [|lia]. destruct (Nat.ltb_spec j n); [|lia]. cbn [andb]. destruct (negb _); reflexivity.
Qed.
Lemma complete_links n nb : NoDup nb -> (forall a, In a nb -> (a < n)%nat) -> length (linked_pairs (adj_at (complete n)) nb) = (length nb * (length nb - 1))%nat.
Proof.
  intros ND B. unfold linked_pairs. assert (G : forall l, incl l nb -> length (filter (fun ab => (negb (Nat.eqb (fst ab) (snd ab)) && adj_at (complete n) (fst ab) (snd ab))%bool) (list_prod l nb)) = (length l * (length nb - 1))%nat).
  { induction l as [|a l IH]; intros HI; [reflexivity|]. cbn [list_prod]. rewrite filter_app, app_length, IH by (intros x Hx; apply HI; right; exact Hx). cbn [length]. rewrite Nat.mul_succ_l, Nat.add_comm. f_equal.
    assert (Ha : In a nb) by (apply HI; left; reflexivity). rewrite <- (filter_neq nb a ND Ha). clear IH HI. assert (Ia : (a < n)%nat) by (apply B, Ha). clear Ha ND. induction nb as [|b m IH]; [reflexivity|].
    assert (IB : forall x, In x m -> (x < n)%nat) by (intros x Hx; apply B; right; exact Hx). specialize (IH IB). cbn [map filter fst snd]. rewrite complete_at. destruct (Nat.ltb_spec a n); [|lia].
    destruct (Nat.ltb_spec b n) as [_|Q]; [|exfalso; pose proof (B b (or_introl eq_refl)); lia]. cbn [andb]. destruct (Nat.eqb a b); cbn [negb andb length]; rewrite IH; reflexivity. }
  apply G. apply incl_refl.
Qed.

(** So the coefficients are not the link fractions: 10000 particles all within the radius of one another have coefficient 1, and get less than 0.17. *)
Theorem C187_refuted : ~ (forall n adj i, simple_graph n adj -> (Z.of_nat n <= 2 ^ 26)%Z -> (i < n)%nat ->
  let nb := neighbours n (adj_at adj) i in
  let links := length (linked_pairs (adj_at adj) nb) in
  let pairs := (length nb * (length nb - 1))%nat in
  (2 <= length nb)%nat ->
  exists c, nth_error (f_clust_coeffs adj) i = Some c /\ Rabs (sval c - INR links / INR pairs) <= 4 / 5).
Proof.
  intros H. remember (Z.to_nat 10000) as n eqn:En. assert (Zn : Z.of_nat n = 10000%Z) by (subst n; apply Z2Nat.id; lia). clear En.
  pose proof (complete_simple n) as G. assert (Hi : (0 < n)%nat) by lia. assert (Hn : (Z.of_nat n <= 2 ^ 26)%Z) by lia.
  pose proof (complete_neighbours n 0 Hi) as LN. set (nb := neighbours n (adj_at (complete n)) 0) in *.
  assert (LL : length (linked_pairs (adj_at (complete n)) nb) = (length nb * (length nb - 1))%nat).
  { apply complete_links; [apply NoDup_filter, seq_NoDup | intros a Ha; apply filter_In in Ha as (Ha & _); apply in_seq in Ha; lia]. }
  destruct (H n (complete n) 0%nat G Hn Hi) as (c & E & B); [fold nb; lia|]. fold nb in B. rewrite LL in B.
  destruct (C187_saturation_partial n (complete n) 0 G Hn Hi) as (c' & E' & B'); [fold nb; rewrite LL; lia|]. fold nb in B'. rewrite E in E'. injection E' as <-.
  assert (P : INR (length nb * (length nb - 1)) = 99970002) by (rewrite INR_IZR_INZ; f_equal; lia). rewrite P in *.
  replace (99970002 / 99970002) with 1 in B by field. apply Rabs_le_inv in B. apply Rabs_le_inv in B'. cbn [pow] in B'. lra.
Qed.
(** The hypotheses of the positive theorem are met: a triangle with a pendant vertex. *)
Example C173_case : let adj := [[false; true; true; true]; [true; false; true; false]; [true; true; false; false]; [true; false; false; false]] in
  simple_graph 4 adj /\ length (neighbours 4 (adj_at adj) 0) = 3%nat /\ length (linked_pairs (adj_at adj) (neighbours 4 (adj_at adj) 0)) = 2%nat.
Proof.
  cbv zeta. split; [|split; reflexivity]. split; [reflexivity|]. split; [intros row [<-|[<-|[<-|[<-|[]]]]]; reflexivity|].
  intros [|[|[|[|i]]]]; try reflexivity. unfold adj_at. cbn [nth]. destruct i; reflexivity.
Qed.

Print Assumptions C173_coefficient.
Print Assumptions C187_saturation_partial.
Print Assumptions C187_refuted.
