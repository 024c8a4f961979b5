(** arg_closest in doubles, from the four-momenta to the indices (C238). *)
From Coq Require Import ZArith Reals List Bool Lia Lra Permutation Sorting.
From Flocq Require Import Core BinarySingleNaN.
From Verif Require Import Prelude SpecReal SpecIEEE SpecDist SpecAssign RealBase AssignProofs Floats FloatBase FloatOps Floats3 P_Float P_Float3 P_Float6 P_Float7 P_Float9 P_Float15 P_Float16 P_Float19 P_Float21 Floats9 P_Float20 P_Float26.
From Verif Require Import Floats14.
Import ListNotations.
Open Scope R_scope.

Section Costs.
  Context (hypot atan2 : f64 -> f64 -> f64) (expm1 : f64 -> f64) (k : R) (K : 1 <= k <= 1000) (GH : good_hypot k hypot) (GA : good_atan2 k atan2) (GE : accurate_expm1 k expm1).
  Context (rho : R) (n : R) (N1 : 1 <= n) (R1 : 1 <= rho) (SMALL : 100000 * (n + k + 1) * rho * u <= 1).
  Let ru := rho * u.
  Definition near_distance (W : R) (x : f64) (d : R) : Prop := fin x /\ 0 <= d <= W /\ Rabs (val x - d) <= (203 / 100 * k + 9) * u * W.

  (** The distance half of an entry, the computed distances being off by some rounding errors of their bound. *)
  Lemma distance_half_of W xs row v x d j : Forall2 (near_distance W) xs row -> n = INR (length xs) -> 1 <= W -> W <= 2 ^ 399 -> W <= rho * sqrt (variance row) ->
    f_var xs v -> nth_error xs j = Some x -> nth_error row j = Some d ->
    let c := expm1 (f_exponent (fdiv fone v) x) in
    0 < val v /\ fin v /\ fin c /\ Rabs (val c + 1 - exp (- (d * d) / (2 * variance row))) <= (8 * k + 13 * n + 30) * ru.
  Proof.
    intros FR En W1 W2 SP HV Hx Hd c. destruct (ru_facts k ltac:(lra) rho n N1 R1 SMALL) as (U0 & U1 & U2 & N0 & N2 & K0 & K2 & NU & KU0 & KU). fold ru in U1, U2, N0, N2, K0, K2, KU. pose proof u_b as [_ UB].
    set (E := (203 / 100 * k + 9) * u * W). assert (KK : (203 / 100 * k + 9) * u <= / 1000) by lra. assert (KP : 0 < (203 / 100 * k + 9) * u) by lra.
    assert (E5 : E <= / 1000 * W) by (unfold E; apply Rmult_le_compat_r; lra). assert (E0 : 0 < E) by (unfold E; apply Rmult_lt_0_compat; lra).
    assert (FX : Forall2 (fun x d => Rabs (val x - d) <= E) xs row) by (eapply Forall2_impl_in; [|exact FR]; intros a b _ _ (_ & _ & H); exact H).
    assert (ALL : forall z, In z xs -> fin z /\ Rabs (val z) <= 1001 / 1000 * W).
    { intros z Hz. apply In_nth_error in Hz as (m & Em). pose proof (F2_length _ _ _ FR) as LR.
      destruct (nth_error row m) as [d'|] eqn:Ed; [|apply nth_error_None in Ed; assert (m < length xs)%nat by (apply nth_error_Some; congruence); lia].
      destruct (Forall2_nth_both _ _ _ _ _ _ FR Em Ed) as (A & B & C'). split; [exact A|]. apply Rabs_le_inv in C'. fold E in C'. apply Rabs_le. lra. }
    pose proof (nth_error_In _ _ Hx) as Ix. destruct (ALL x Ix) as (Fx & Bx). pose proof (Forall2_nth_both _ _ _ _ _ _ FX Hx Hd) as HE. cbv beta in HE.
    assert (P399 : 2 * 2 ^ 399 = 2 ^ 400) by reflexivity. assert (I4 : / 2 ^ 400 <= 1) by (rewrite <- Rinv_1; apply Rinv_le_contravar; [lra | apply pow_R1_Rle; lra]).
    set (sg := sqrt (variance row)) in *. assert (SG : 0 < sg). { destruct (sqrt_pos (variance row)) as [H|H]; [exact H|]. exfalso. unfold sg in SP. rewrite <- H in SP. lra. }
    assert (RX : W / sg <= rho) by (apply ratio_le; assumption). assert (IS : 0 < / sg) by (apply Rinv_0_lt_compat, SG).
    assert (ES : E / sg <= (203 / 100 * k + 9) * ru).
    { unfold E, Rdiv at 1, ru. replace ((203 / 100 * k + 9) * (rho * u)) with ((203 / 100 * k + 9) * u * rho) by ring. rewrite Rmult_assoc. apply Rmult_le_compat_l; [lra | exact RX]. }
    assert (PS : n * u * (1001 / 1000 * W) / sg <= 1001 / 1000 * (n * ru)).
    { unfold Rdiv. replace (n * u * (1001 * / 1000 * W) * / sg) with (1001 / 1000 * (n * u) * (W / sg)) by (unfold Rdiv; ring). unfold ru. replace (1001 * / 1000 * (n * (rho * u))) with (1001 / 1000 * (n * u) * rho) by (unfold Rdiv; ring).
      apply Rmult_le_compat_l; [|exact RX]. apply Rmult_le_pos; [lra | apply Rmult_le_pos; lra]. }
    assert (BACK : forall a b, a / sg <= b -> a <= b * sg). { intros a b H. apply (Rmult_le_compat_r sg) in H; [|lra]. unfold Rdiv in H. rewrite Rmult_assoc, Rinv_l in H by lra. lra. }
    pose proof (BACK _ _ ES) as ES'. pose proof (BACK _ _ PS) as PS'.
    assert (B1 : (203 / 100 * k + 9) * ru * sg <= / 8000 * sg) by (apply Rmult_le_compat_r; lra). assert (B2 : 1001 / 1000 * (n * ru) * sg <= 1001 / 1000 * / 100000 * sg) by (apply Rmult_le_compat_r; lra).
    destruct (kernel_close expm1 k xs row v (1001 / 1000 * W) E x d ltac:(lra) GE FX) as (A1 & A2 & A3 & A4); try assumption.
    - intros Z. rewrite Z in Ix. exact Ix.
    - apply Forall_forall. intros z Hz. apply ALL, Hz.
    - intros z Hz. apply ALL, Hz.
    - lra.
    - rewrite <- En. exact NU.
    - fold sg. lra.
    - rewrite <- En. fold sg. lra.
    - fold c in A3, A4. split; [exact A1|]. split; [exact A2|]. split; [exact A3|]. rewrite <- En in A4. fold sg in A4. lra.
  Qed.
End Costs.

Definition index_error (k rho : R) (n : nat) : R := (38 * INR n + 16 * k + 42) * rho * u.

(** The matrix of costs, for distances off by some rounding errors of their bound. *)
Lemma costs_of : forall hypot atan2 expm1 k rap_1 rap_2 pol_1 pol_2 D W Y rho out,
  1 <= k <= 1000 -> good_hypot k hypot -> accurate_expm1 k expm1 ->
  length rap_1 = length pol_1 -> length rap_2 = length pol_2 -> (forall p, In p (pol_1 ++ pol_2) -> usable p) ->
  Forall2 (Forall2 (near_distance k W)) (f_distances hypot atan2 rap_1 rap_2 pol_1 pol_2) D -> 1 <= rho ->
  1 <= W -> W <= 2 ^ 399 -> (forall p, In p (pol_1 ++ pol_2) -> pt_of p <= Y) -> / 2 ^ 400 <= Y -> Y <= 2 ^ 398 ->
  (forall row, In row D -> W <= rho * sqrt (variance row)) -> Y <= rho * sqrt (variance (map pt_of pol_2)) -> 100000 * (INR (length pol_2) + k + 1) * rho * u <= 1 ->
  f_assignment_cost hypot atan2 expm1 rap_1 rap_2 pol_1 pol_2 out ->
  exists C, out = Ok C /\ length C = length pol_1 /\ (forall c, In c C -> length c = length pol_2) /\ forall i j, (i < length pol_1)%nat -> (j < length pol_2)%nat ->
    exists c, entry C i j c /\ fin c /\ Rabs (val c - exact_cost pol_1 pol_2 D i j) <= index_error k rho (length pol_2).
Proof.
  intros hypot atan2 expm1 k rap_1 rap_2 pol_1 pol_2 D W Y rho out K GH GE L1 L2 HP HD R1 W1 W2 SY YL YU DX DY SM (vp & HVP & HO).
  assert (K' : 0 <= k <= 1000) by lra.
  pose proof u_b as [U0 U1]. set (n := INR (length pol_2)) in *.
  assert (Y0 : 0 < Y) by (assert (0 < / 2 ^ 400) by (apply Rinv_0_lt_compat, pow_lt; lra); lra).
  assert (NE : pol_2 <> []). { intros ->. cbn in DY. assert (Z : variance [] = 0) by (unfold variance, mean; cbn; unfold Rdiv; ring). rewrite Z, sqrt_0 in DY. lra. }
  assert (N1 : 1 <= n). { unfold n. change 1 with (INR 1). apply le_INR. destruct pol_2; [contradiction | cbn; lia]. }
  assert (MH : forall p1 p2, In p1 (pol_1 ++ pol_2) -> In p2 pol_2 -> let c := expm1 (f_exponent (fdiv fone vp) (fsub (f_abs hypot p1) (f_abs hypot p2))) in
    0 < val vp /\ fin vp /\ fin c /\ Rabs (val c + 1 - exp (- ((pt_of p1 - pt_of p2) * (pt_of p1 - pt_of p2)) / (2 * variance (map pt_of pol_2)))) <= (8 * k + 25 * n + 9) * (rho * u)).
  { intros p1 p2 I1 I2. apply (momentum_half hypot expm1 k K' GH GE rho n N1 R1 SM Y p1 pol_2 vp p2); auto; intros; [apply HP | apply SY]; apply in_or_app; right; assumption. }
  assert (SV : feq vp fzero = false). { destruct pol_2 as [|q l]; [contradiction|]. destruct (MH q q) as (A & B & _); [apply in_or_app; right; left; reflexivity | left; reflexivity|]. apply pos_not_zero; assumption. }
  rewrite SV in HO. destruct HO as (C & -> & HC). exists C. split; [reflexivity|].
  assert (LF : length (f_distances hypot atan2 rap_1 rap_2 pol_1 pol_2) = length pol_1) by (unfold f_distances; rewrite map_length, combine_length; lia).
  assert (LC : length C = length pol_1) by (rewrite <- (F2_length _ _ _ HC), combine_length; lia).
  split; [exact LC|]. split.
  { intros c Hc. apply In_nth_error in Hc as (m & Em). destruct (nth_error (combine (f_distances hypot atan2 rap_1 rap_2 pol_1 pol_2) pol_1) m) as [(dr, pl)|] eqn:Ee.
    - destruct (Forall2_nth_both _ _ _ _ _ _ HC Ee Em) as (vd & _ & HL & _). cbn [fst] in HL. rewrite HL. apply nth_error_In, in_combine_l in Ee. unfold f_distances in Ee. apply in_map_iff in Ee as (a & <- & _). rewrite map_length, combine_length. lia.
    - exfalso. apply nth_error_None in Ee. assert (m < length C)%nat by (apply nth_error_Some; congruence). pose proof (F2_length _ _ _ HC). lia. }
  intros i j Hi Hj.
  destruct (nth_error_lt pol_1 i Hi) as (p1 & E1). destruct (nth_error_lt rap_1 i ltac:(lia)) as (r1 & Er1). destruct (nth_error_lt pol_2 j Hj) as (p2 & E2). destruct (nth_error_lt rap_2 j ltac:(lia)) as (r2 & Er2).
  destruct (nth_error_lt C i ltac:(lia)) as (crow & EC).
  pose proof (nth_combine _ _ _ _ _ Er1 E1) as Ec1. pose proof (nth_combine _ _ _ _ _ Er2 E2) as Ec2.
  assert (LD : length D = length pol_1) by (rewrite <- (F2_length _ _ _ HD); exact LF). destruct (nth_error_lt D i ltac:(lia)) as (row & ED).
  set (f := fun b => f_delta hypot atan2 r1 (fst b) p1 (snd b)).
  assert (EDR : nth_error (f_distances hypot atan2 rap_1 rap_2 pol_1 pol_2) i = Some (map f (combine rap_2 pol_2))) by (unfold f_distances; rewrite (nth_error_map_f _ _ _ _ Ec1); reflexivity).
  pose proof (Forall2_nth_both _ _ _ _ _ _ HD EDR ED) as FR. assert (LX : length (map f (combine rap_2 pol_2)) = length pol_2) by (rewrite map_length, combine_length; lia).
  assert (LR : length row = length pol_2) by (rewrite <- (F2_length _ _ _ FR); exact LX). destruct (nth_error_lt row j ltac:(lia)) as (d & Ed).
  destruct (Forall2_nth_both _ _ _ _ _ _ HC (nth_combine _ _ _ _ _ EDR E1) EC) as (vd & HVD & HL & HE). cbn [fst snd] in *.
  pose proof (nth_error_map_f f _ _ _ Ec2) as Ex.
  pose proof (nth_error_In _ _ ED) as ID. pose proof (nth_error_In _ _ E1) as I1. pose proof (nth_error_In _ _ E2) as I2.
  destruct (distance_half_of expm1 k K GE rho n N1 R1 SM W _ row vd (f (r2, p2)) d j FR) as (A1 & A2 & A3 & A4); try assumption.
  - rewrite LX. reflexivity.
  - apply DX, ID.
  - destruct (MH p1 p2) as (_ & _ & B3 & B4); [apply in_or_app; left; exact I1 | exact I2|]. cbv zeta in A3, A4, B3, B4.
    specialize (HE (pos_not_zero _ A2 A1)). set (c1 := expm1 (f_exponent (fdiv fone vd) (f (r2, p2)))) in *. set (c2 := expm1 (f_exponent (fdiv fone vp) (fsub (f_abs hypot p1) (f_abs hypot p2)))) in *.
    exists (fneg (fadd c1 c2)).
    assert (EN : entry C i j (fneg (fadd c1 c2))).
    { exists crow. split; [exact EC|]. rewrite HE. erewrite nth_error_map_f; [|apply nth_combine; [exact Ex | apply nth_error_map_f; exact E2]]. reflexivity. }
    split; [exact EN|].
    set (g1 := exp (- (d * d) / (2 * variance row))) in *. set (g2 := exp (- ((pt_of p1 - pt_of p2) * (pt_of p1 - pt_of p2)) / (2 * variance (map pt_of pol_2)))) in *.
    assert (EX : exact_cost pol_1 pol_2 D i j = 2 - g1 - g2).
    { unfold exact_cost, pair_cost. rewrite (nth_error_nth _ _ [] ED), (nth_error_nth _ _ 0 Ed), (nth_error_nth _ _ 0 (nth_error_map_f pt_of _ _ _ E1)), (nth_error_nth _ _ 0 (nth_error_map_f pt_of _ _ _ E2)). reflexivity. }
    assert (G1 : 0 <= g1 <= 1). { unfold g1. replace (- (d * d) / (2 * variance row)) with (- (d * d / (2 * variance row))) by (unfold Rdiv; ring). destruct (exp_neg_1 (d * d / (2 * variance row))); [|lra]. apply Rmult_le_pos; [apply Rle_0_sqr|].
      left. apply Rinv_0_lt_compat. assert (0 < variance row); [|lra]. destruct (Rle_dec (variance row) 0) as [Z|Z]; [|lra]. exfalso. pose proof (DX row ID) as Q. rewrite sqrt_neg_0 in Q by exact Z. lra. }
    assert (G2 : 0 <= g2 <= 1). { unfold g2. set (q := (pt_of p1 - pt_of p2) * (pt_of p1 - pt_of p2)). replace (- q / (2 * variance (map pt_of pol_2))) with (- (q / (2 * variance (map pt_of pol_2)))) by (unfold Rdiv; ring). destruct (exp_neg_1 (q / (2 * variance (map pt_of pol_2)))); [|lra]. apply Rmult_le_pos; [apply Rle_0_sqr|].
      left. apply Rinv_0_lt_compat. assert (0 < variance (map pt_of pol_2)); [|lra]. destruct (Rle_dec (variance (map pt_of pol_2)) 0) as [Z|Z]; [|lra]. exfalso. rewrite sqrt_neg_0 in DY by exact Z. lra. }
    destruct (ru_facts k K' rho n N1 R1 SM) as (_ & X1 & X2 & N0 & N2 & K0 & K2 & _). set (ru := rho * u) in *.
    pose proof (Rabs_le_inv _ _ A4) as A4'. pose proof (Rabs_le_inv _ _ B4) as B4'. assert (SB : Rabs (val c1 + val c2) <= 201 / 100) by (apply Rabs_le; lra).
    assert (P : 2 ^ 2 <= SpecIEEE.huge) by (unfold SpecIEEE.huge; apply Rle_pow; [lra | lia]).
    destruct (fadd_ok c1 c2 A3 B3) as (VS & FS); [apply no_overflow; lra|]. split; [apply fneg_fin, FS|].
    destruct (add_rel c1 c2) as (e & He & EE). rewrite fneg_ok, VS, EE, EX.
    assert (eb : Rabs ((val c1 + val c2) * e) <= 201 / 100 * u) by (rewrite Rabs_mult; apply Rmult_le_compat; auto using Rabs_pos).
    replace (- ((val c1 + val c2) * (1 + e)) - (2 - g1 - g2)) with (- ((val c1 + 1 - g1) + ((val c2 + 1 - g2) + (val c1 + val c2) * e))) by ring. rewrite Rabs_Ropp.
    eapply Rle_trans; [apply Rabs_triang|]. assert (T : Rabs ((val c2 + 1 - g2) + (val c1 + val c2) * e) <= (8 * k + 25 * n + 9) * ru + 201 / 100 * u) by (eapply Rle_trans; [apply Rabs_triang|]; lra).
    unfold index_error. fold n. replace ((38 * n + 16 * k + 42) * rho * u) with ((38 * n + 16 * k + 42) * ru) by (unfold ru; ring). lra.
Qed.

(** * The indices *)
Definition pt4 (p : fmom) : R := sqrt (pt_sq (mom4 p)).
(** The cost of assigning candidate [j] to focus object [i], the distances being [d]. *)
Definition plane_cost (focus cand : list fmom) (d : nat -> nat -> R) (i j : nat) : R :=
  pair_cost (d i j) (variance (map (d i) (seq 0 (length cand)))) (nth i (map pt4 focus) 0 - nth j (map pt4 cand) 0) (variance (map pt4 cand)).
(** [d i j] is the distance in the rapidity-azimuth plane of the [i]th focus object from the [j]th candidate. *)
Definition plane_distances (focus cand : list fmom) (d : nat -> nat -> R) : Prop :=
  forall i j p q, nth_error focus i = Some p -> nth_error cand j = Some q ->
    exists g, azimuth_gap (mom4 p) (mom4 q) g /\
      d i j = sqrt ((true_rap (mom4 p) - true_rap (mom4 q)) * (true_rap (mom4 p) - true_rap (mom4 q)) + g * g).
(** Momenta whose transverse parts and rapidities are in range and bounded, and are not swamped by the tolerance. *)
Definition placed (tol : f64) (Z Y : R) (p : fmom) : Prop :=
  usable (mx p, my p) /\ timelike tol (me p) (mz p) /\ Rabs (true_rap (mom4 p)) <= Z /\ pt4 p <= Y.
(** The standard deviations are at least the [rho]th part of the bounds [W], [Y] of the quantities. *)
Definition well_spread (focus cand : list fmom) (d : nat -> nat -> R) (W Y rho : R) : Prop :=
  (forall i, (i < length focus)%nat -> W <= rho * sqrt (variance (map (d i) (seq 0 (length cand))))) /\ Y <= rho * sqrt (variance (map pt4 cand)).

Lemma total_combine (F : nat -> nat -> R) xs : total F (combine (seq 0 (length xs)) xs) = rsum (map (fun i => F i (nth i xs O)) (seq 0 (length xs))).
Proof.
  unfold total. assert (G : forall xs k, map (fun i => F i (nth (i - k) xs O)) (seq k (length xs)) = map (fun p => F (fst p) (snd p)) (combine (seq k (length xs)) xs)).
  { clear. induction xs as [|x xs IH]; intros k; [reflexivity|]. cbn [length seq combine map fst snd]. rewrite Nat.sub_diag. cbn [nth]. f_equal.
    rewrite <- IH. apply map_ext_in. intros i Hi. apply in_seq in Hi. destruct (i - k)%nat as [|m] eqn:Em; [lia|]. replace (i - S k)%nat with m by lia. reflexivity. }
  rewrite <- G. f_equal. apply map_ext. intros i. rewrite Nat.sub_0_r. reflexivity.
Qed.
Lemma nth_seq_map {A} (F : nat -> A) m n i : (i < n)%nat -> nth_error (map F (seq m n)) i = Some (F (m + i)%nat).
Proof. revert m i. induction n as [|n IH]; intros m i H; [lia|]. destruct i as [|i]; cbn [seq map nth_error]; [rewrite Nat.add_0_r; reflexivity|]. rewrite IH by lia. f_equal. f_equal. lia. Qed.
Lemma Forall2_by_index {A B} (P : A -> B -> Prop) l r : length l = length r -> (forall i x y, nth_error l i = Some x -> nth_error r i = Some y -> P x y) -> Forall2 P l r.
Proof.
  revert r. induction l as [|x l IH]; intros [|y r] L H; try discriminate L; constructor; [apply (H O); reflexivity|]. apply IH; [injection L; auto|]. intros i a b. apply (H (S i)).
Qed.
Lemma injection_matching n1 n2 f : (n1 <= n2)%nat -> injection_below n1 n2 f -> matching n1 n2 (combine (seq 0 n1) (map f (seq 0 n1))).
Proof.
  intros L (R & I). assert (F1 : forall (A B : Type) (l : list A) (r : list B), length l = length r -> map fst (combine l r) = l /\ map snd (combine l r) = r).
  { clear. intros A B. induction l as [|x l IH]; intros [|y r] E; try discriminate E; [split; reflexivity|]. destruct (IH r ltac:(injection E; auto)) as (E1 & E2). cbn. rewrite E1, E2. split; reflexivity. }
  destruct (F1 _ _ (seq 0 n1) (map f (seq 0 n1)) ltac:(rewrite map_length; reflexivity)) as (E1 & E2).
  split; [rewrite E1; apply seq_NoDup|]. split; [|split].
  - rewrite E2. assert (G : forall l, NoDup l -> (forall x, In x l -> (x < n1)%nat) -> NoDup (map f l)).
    { induction l as [|x l IH]; intros ND B; [constructor|]. inversion ND; subst. cbn [map]. constructor; [|apply IH; [assumption | intros; apply B; right; assumption]].
      intros H. apply in_map_iff in H as (y & E & Hy). apply I in E; [subst y; contradiction | apply B; right; exact Hy | apply B; left; reflexivity]. }
    apply G; [apply seq_NoDup|]. intros x Hx. apply in_seq in Hx. lia.
  - intros i j H. pose proof (in_combine_l _ _ _ _ H) as H1. pose proof (in_combine_r _ _ _ _ H) as H2. apply in_seq in H1. split; [lia|]. apply in_map_iff in H2 as (x & <- & Hx). apply in_seq in Hx. apply R. lia.
  - rewrite combine_length, map_length, seq_length. lia.
Qed.

(** arg_closest gives one candidate to each focus object, no candidate twice, and its total cost is the least possible up to the slack below. *)
Theorem C238_assignment : forall hypot atan2 log expm1 k, 1 <= k <= 1000 -> good_hypot k hypot -> good_atan2 k atan2 -> good_log k log -> accurate_expm1 k expm1 ->
  forall tol focus cand d X Z Y rho out, (length focus <= length cand)%nat ->
  (forall p, In p (focus ++ cand) -> placed tol Z Y p) -> plane_distances focus cand d ->
  (forall i j, (i < length focus)%nat -> (j < length cand)%nat -> d i j <= X) -> 0 <= X -> 0 <= Z -> X + Z <= 2 ^ 398 -> / 2 ^ 400 <= Y -> Y <= 2 ^ 398 ->
  1 <= rho -> well_spread focus cand d (X + Z + 1) Y rho -> 100000 * (INR (length cand) + k + 1) * rho * u <= 1 ->
  f_arg_closest hypot atan2 log expm1 tol focus cand out ->
  exists idxs, out = Ok idxs /\ length idxs = length focus /\ NoDup idxs /\ (forall j, In j idxs -> (j < length cand)%nat) /\
    forall f, injection_below (length focus) (length cand) f ->
      let cost := plane_cost focus cand d in
      rsum (map (fun i => cost i (nth i idxs O)) (seq 0 (length focus))) <=
      rsum (map (fun i => cost i (f i)) (seq 0 (length focus))) + 2 * INR (length focus) * index_error k rho (length cand).
Proof.
  intros hypot atan2 log expm1 k K GH GA GL GE tol focus cand d X Z Y rho out HN HP HD HX X0 Z0 XZ YL YU R1 (S1 & S2) SM (M & HM & HO).
  pose proof u_b as [U0 U1]. set (n1 := length focus) in *. set (n2 := length cand) in *. set (W := X + Z + 1) in *.
  set (D := map (fun i => map (d i) (seq 0 n2)) (seq 0 n1)).
  assert (P398 : 2 ^ 399 = 2 * 2 ^ 398) by reflexivity. assert (P3 : 1 <= 2 ^ 398) by (apply pow_R1_Rle; lra).
  assert (PT : forall p, pt_of (pol_of_mom p) = pt4 p) by reflexivity.
  assert (MP : forall l, map pt_of (map pol_of_mom l) = map pt4 l) by (intros l; rewrite map_map; apply map_ext, PT).
  assert (L1 : length (map pol_of_mom focus) = n1) by apply map_length. assert (L2 : length (map pol_of_mom cand) = n2) by apply map_length.
  assert (IN : forall p, In p (map pol_of_mom focus ++ map pol_of_mom cand) -> exists q, In q (focus ++ cand) /\ p = pol_of_mom q).
  { intros p H. rewrite <- map_app in H. apply in_map_iff in H as (q & <- & Hq). exists q. split; [exact Hq | reflexivity]. }
  destruct (costs_of hypot atan2 expm1 k (map (rap_of_mom log tol) focus) (map (rap_of_mom log tol) cand) (map pol_of_mom focus) (map pol_of_mom cand) D W Y rho M) as (C & -> & LC & LR & HC); try assumption; try (rewrite !map_length; reflexivity).
  - intros p Hp. destruct (IN p Hp) as (q & Iq & ->). apply (HP q Iq).
  - unfold f_distances. apply Forall2_by_index; [unfold D; rewrite !map_length, combine_length, !map_length, seq_length, Nat.min_id; reflexivity|].
    intros i xs row Hxs Hrow. rewrite nth_error_map' in Hxs. destruct (nth_error (combine (map (rap_of_mom log tol) focus) (map pol_of_mom focus)) i) as [(r1, p1)|] eqn:Ei; [|discriminate Hxs]. injection Hxs as <-.
    assert (Hi : (i < n1)%nat). { assert (i < length (combine (map (rap_of_mom log tol) focus) (map pol_of_mom focus)))%nat by (apply nth_error_Some; congruence). rewrite combine_length, !map_length in H. fold n1 in H. lia. }
    destruct (nth_error_lt focus i Hi) as (p & Ep).
    rewrite (nth_combine _ _ _ _ _ (nth_error_map_f (rap_of_mom log tol) _ _ _ Ep) (nth_error_map_f pol_of_mom _ _ _ Ep)) in Ei. injection Ei as <- <-.
    unfold D in Hrow. rewrite (nth_seq_map _ 0 n1 i Hi) in Hrow. injection Hrow as <-. cbn [Nat.add fst snd].
    apply Forall2_by_index; [rewrite !map_length, combine_length, !map_length, seq_length, Nat.min_id; reflexivity|].
    intros j x dj Hxj Hdj. rewrite nth_error_map' in Hxj. destruct (nth_error (combine (map (rap_of_mom log tol) cand) (map pol_of_mom cand)) j) as [(r2, p2)|] eqn:Ej; [|discriminate Hxj]. injection Hxj as <-.
    assert (Hj : (j < n2)%nat). { assert (j < length (combine (map (rap_of_mom log tol) cand) (map pol_of_mom cand)))%nat by (apply nth_error_Some; congruence). rewrite combine_length, !map_length in H. fold n2 in H. lia. }
    destruct (nth_error_lt cand j Hj) as (q & Eq).
    rewrite (nth_combine _ _ _ _ _ (nth_error_map_f (rap_of_mom log tol) _ _ _ Eq) (nth_error_map_f pol_of_mom _ _ _ Eq)) in Ej. injection Ej as <- <-.
    rewrite (nth_seq_map _ 0 n2 j Hj) in Hdj. injection Hdj as <-. cbn [Nat.add fst snd].
    destruct (HD i j p q Ep Eq) as (g & G & EG). specialize (HX i j Hi Hj).
    destruct (HP p) as (Up & Tp & Zp & _); [apply in_or_app; left; eapply nth_error_In, Ep|]. destruct (HP q) as (Uq & Tq & Zq & _); [apply in_or_app; right; eapply nth_error_In, Eq|].
    pose proof (C222_accuracy hypot atan2 log k K GH GA GL tol (mx p) (my p) (mz p) (me p) (mx q) (my q) (mz q) (me q) g Up Uq Tp Tq G) as A. cbv zeta in A.
    change (exactly4 (mx p) (my p) (mz p) (me p)) with (mom4 p) in A. change (exactly4 (mx q) (my q) (mz q) (me q)) with (mom4 q) in A. rewrite <- EG in A. destruct A as (AF & AE).
    assert (D0 : 0 <= d i j) by (rewrite EG; apply sqrt_pos). split; [exact AF|]. split; [unfold W; lra|].
    eapply Rle_trans; [exact AE|]. unfold rap_error. set (a := Rabs (true_rap (mom4 p))) in *. set (b := Rabs (true_rap (mom4 q))) in *.
    assert (a0 : 0 <= a) by apply Rabs_pos. assert (b0 : 0 <= b) by apply Rabs_pos. clearbody a b.
    replace ((203 / 100 * k + 9) * u * W) with ((203 / 100 * k + 9) * W * u) by ring.
    replace (((2 * k + 2) * d i j + 4) * u + 101 / 100 * (((k + 2) * a + 2) * u + ((k + 2) * b + 2) * u)) with (((2 * k + 2) * d i j + 4 + 101 / 100 * ((k + 2) * a + 2 + ((k + 2) * b + 2))) * u) by ring.
    apply Rmult_le_compat_r; [lra|]. assert (Q1 : (2 * k + 2) * d i j <= (2 * k + 2) * X) by (apply Rmult_le_compat_l; lra). assert (Q2 : (k + 2) * a <= (k + 2) * Z) by (apply Rmult_le_compat_l; lra). assert (Q3 : (k + 2) * b <= (k + 2) * Z) by (apply Rmult_le_compat_l; lra).
    assert (Q4 : 0 <= k * X) by (apply Rmult_le_pos; lra). assert (Q5 : 0 <= k * Z) by (apply Rmult_le_pos; lra). unfold W. lra.
  - unfold W. lra.
  - unfold W. lra.
  - intros p Hp. destruct (IN p Hp) as (q & Iq & ->). rewrite PT. apply (HP q Iq).
  - intros row Hr. unfold D in Hr. apply in_map_iff in Hr as (i & <- & Hi). apply in_seq in Hi. apply S1. lia.
  - rewrite MP. exact S2.
  - rewrite L2. exact SM.
  - rewrite L1 in LC, HC. rewrite L2 in LR, HC. destruct HO as (r & HL & ->). unfold f_linear_sum_assignment in HL. fold n1 n2 in HL.
    assert (FB : forallb (forallb (fun x => is_finite x)) C = true).
    { apply forallb_forall. intros c Hc. apply forallb_forall. intros x Hx. destruct (In_nth_error C c Hc) as (i & Ei). assert (Hi : (i < n1)%nat) by (rewrite <- LC; apply nth_error_Some; intros ZZ; rewrite Ei in ZZ; discriminate ZZ).
      assert (Lc : length c = n2) by (apply LR; exact Hc). destruct (In_nth_error c x Hx) as (j & Ej). assert (Hj : (j < n2)%nat) by (rewrite <- Lc; apply nth_error_Some; intros ZZ; rewrite Ej in ZZ; discriminate ZZ).
      destruct (HC i j Hi Hj) as (c' & (rw & E1 & E2) & F & _). rewrite Ei in E1. injection E1 as <-. pose proof (eq_trans (eq_sym Ej) E2) as E3. injection E3 as ->. exact F. }
    rewrite FB in HL. destruct HL as (a & HB & ->). cbn [bind]. exists (map snd a). split; [reflexivity|].
    destruct (best_matching_rows _ _ _ _ HN HB) as (LA & ND & RG & EC & _). split; [exact LA|]. split; [exact ND|]. split; [exact RG|]. intros f Hf. set (cost := plane_cost focus cand d).
    assert (CL : forall i j, (i < n1)%nat -> (j < n2)%nat -> Rabs (val (nth j (nth i C []) fzero) - cost i j) <= index_error k rho n2).
    { intros i j Hi Hj. destruct (HC i j Hi Hj) as (c & (rw & E1 & E2) & _ & E). rewrite (nth_error_nth _ _ [] E1), (nth_error_nth _ _ fzero E2).
      assert (EQ : exact_cost (map pol_of_mom focus) (map pol_of_mom cand) D i j = cost i j).
      { unfold exact_cost, cost, plane_cost. rewrite !MP. unfold D. rewrite (nth_error_nth _ _ [] (nth_seq_map (fun i => map (d i) (seq 0 n2)) 0 n1 i Hi)), (nth_error_nth _ _ 0 (nth_seq_map (d (0 + i)%nat) 0 n2 j Hj)). reflexivity. }
      rewrite <- EQ. exact E. }
    pose proof (near_best n1 n2 _ cost _ a _ CL HB (injection_matching n1 n2 f HN Hf)) as NB. rewrite Nat.min_l in NB by exact HN.
    rewrite EC in NB. rewrite <- LA in NB at 1. rewrite total_combine, LA in NB.
    assert (T2 : total cost (combine (seq 0 n1) (map f (seq 0 n1))) = rsum (map (fun i => cost i (f i)) (seq 0 n1))).
    { unfold total. f_equal. generalize (seq 0 n1). induction l as [|x l IH]; [reflexivity|]. cbn [map combine fst snd]. rewrite IH. reflexivity. }
    rewrite T2 in NB. exact NB.
Qed.
Print Assumptions C238_assignment.

(** And when one assignment is best by more than the rounding can blur, it is the one returned. *)
Theorem C238_same : forall hypot atan2 log expm1 k, 1 <= k <= 1000 -> good_hypot k hypot -> good_atan2 k atan2 -> good_log k log -> accurate_expm1 k expm1 ->
  forall tol focus cand d X Z Y rho out, (length focus <= length cand)%nat ->
  (forall p, In p (focus ++ cand) -> placed tol Z Y p) -> plane_distances focus cand d ->
  (forall i j, (i < length focus)%nat -> (j < length cand)%nat -> d i j <= X) -> 0 <= X -> 0 <= Z -> X + Z <= 2 ^ 398 -> / 2 ^ 400 <= Y -> Y <= 2 ^ 398 ->
  1 <= rho -> well_spread focus cand d (X + Z + 1) Y rho -> 100000 * (INR (length cand) + k + 1) * rho * u <= 1 ->
  f_arg_closest hypot atan2 log expm1 tol focus cand out ->
  forall f, injection_below (length focus) (length cand) f ->
    (let cost g := rsum (map (fun i => plane_cost focus cand d i (g i)) (seq 0 (length focus))) in
     forall g, injection_below (length focus) (length cand) g -> (exists i, (i < length focus)%nat /\ g i <> f i) ->
       cost f + 2 * INR (length focus) * index_error k rho (length cand) < cost g) ->
    out = Ok (map f (seq 0 (length focus))).
Proof.
  intros hypot atan2 log expm1 k K GH GA GL GE tol focus cand d X Z Y rho out HN HP HD HX X0 Z0 XZ YL YU R1 S SM HO f Hf U. cbv zeta in U.
  destruct (C238_assignment hypot atan2 log expm1 k K GH GA GL GE tol focus cand d X Z Y rho out HN HP HD HX X0 Z0 XZ YL YU R1 S SM HO) as (idxs & -> & L & ND & B & H).
  specialize (H f Hf). cbv zeta in H. f_equal.
  assert (IG : injection_below (length focus) (length cand) (fun i => nth i idxs O)).
  { split; [intros i Hi; apply B, nth_In; lia|]. intros i j Hi Hj E. eapply NoDup_nth; [exact ND | lia | lia | exact E]. }
  apply (nth_ext _ _ O O); [rewrite map_length, seq_length; exact L|]. intros i Hi. rewrite L in Hi.
  rewrite (nth_indep (map f (seq 0 (length focus))) O (f O)) by (rewrite map_length, seq_length; exact Hi). rewrite map_nth, seq_nth by exact Hi. cbn [Nat.add].
  destruct (Nat.eq_dec (nth i idxs O) (f i)) as [E|NE]; [exact E|]. exfalso. specialize (U _ IG (ex_intro _ i (Logic.conj Hi NE))). cbv beta in U. lra.
Qed.
Print Assumptions C238_same.

(** * A case: one object on the x-axis; two candidates there, of transverse momentum 1 and 2, the second at rapidity log 2. *)
Definition at_rest : fmom := (fone, fzero, fzero, fone).
Definition moving : fmom := (ftwo, fzero, lit 3 0, lit 5 0).
Definition tiny_tol : f64 := lit 1 (-33).
Definition case_dist (i j : nat) : R := match j with O => 0 | _ => ln 2 end.
Lemma ln2_bounds : / 2 <= ln 2 <= 1.
Proof. split; [|pose proof (ln_le_sub 2 ltac:(lra)); lra]. pose proof (ln_le_sub (/ 2) ltac:(lra)) as H. rewrite ln_Rinv in H by lra. lra. Qed.
Example C238_case : 
  good_hypot 1 ref_hypot /\ good_atan2 1 ref_atan2 /\ good_log 1 ref_log /\ accurate_expm1 1 ref_expm1 /\
  (forall p, In p ([at_rest] ++ [at_rest; moving]) -> placed tiny_tol 1 2 p) /\ plane_distances [at_rest] [at_rest; moving] case_dist /\
  (forall i j, (i < 1)%nat -> (j < 2)%nat -> case_dist i j <= 1) /\ 1 + 1 <= 2 ^ 398 /\ / 2 ^ 400 <= 2 /\ 2 <= 2 ^ 398 /\
  well_spread [at_rest] [at_rest; moving] case_dist (1 + 1 + 1) 2 16 /\ 100000 * (INR 2 + 1 + 1) * 16 * u <= 1 /\
  plane_cost [at_rest] [at_rest; moving] case_dist 0 0 = 0 /\ plane_cost [at_rest] [at_rest; moving] case_dist 0 1 = 2 - 2 * exp (-2).
Proof.
  destruct (lit_ok 1 (-33) ltac:(lia) ltac:(lia)) as (VT & FT). destruct (lit_int 5 ltac:(lia)) as (V5 & F5). destruct (lit_int 3 ltac:(lia)) as (V3 & F3).
  destruct (lit_int 1 ltac:(lia)) as (V1 & F1). destruct (lit_int 2 ltac:(lia)) as (V2 & F2). fold fone in V1, F1. fold ftwo in V2, F2. fold tiny_tol in VT, FT. pose proof u_b as [U0 U1]. assert (V0 : val fzero = 0) by reflexivity.
  assert (P33 : bpow radix2 (-33) = / 2 ^ 33) by (change (bpow radix2 (- (33)) = / 2 ^ 33); rewrite bpow_opp, <- (IZR_Zpower radix2) by lia; rewrite pow_IZR; reflexivity).
  assert (P33' : 4 <= 2 ^ 33) by (apply Rle_trans with (2 ^ 2); [simpl; lra | apply Rle_pow; [lra | lia]]). assert (I33 : / 2 ^ 33 <= / 4) by (apply Rinv_le_contravar; lra).
  assert (P500 : 8 <= 2 ^ 500) by (apply Rle_trans with (2 ^ 3); [simpl; lra | apply Rle_pow; [lra | lia]]). assert (P398 : 8 <= 2 ^ 398) by (apply Rle_trans with (2 ^ 3); [simpl; lra | apply Rle_pow; [lra | lia]]).
  assert (I500 : / 2 ^ 500 <= 1) by (rewrite <- Rinv_1; apply Rinv_le_contravar; lra). assert (I400 : / 2 ^ 400 <= 1) by (rewrite <- Rinv_1; apply Rinv_le_contravar; [lra | apply pow_R1_Rle; lra]).
  pose proof ln2_bounds as (LA & LB).
  assert (PT1 : pt4 at_rest = 1) by (change (pt_of (fone, fzero) = 1); rewrite axis_pt; rewrite V1; lra). assert (PT2 : pt4 moving = 2) by (change (pt_of (ftwo, fzero) = 2); rewrite axis_pt; rewrite V2; lra).
  assert (US : forall x, fin x -> 1 <= val x <= 2 -> usable (x, fzero)).
  { intros x Fx Bx. split; [|split]; cbn [fst snd]; [split; [exact Fx | rewrite Rabs_pos_eq; lra] | split; [reflexivity | rewrite V0, Rabs_R0; lra] |]. fold (pt_of (x, fzero)). rewrite axis_pt; lra. }
  assert (RA : true_rap (mom4 at_rest) = 0). { unfold true_rap, mom4, at_rest, mx, my, mz, me. cbn [en pz fst snd]. rewrite V0, V1. replace ((1 + 0) / (1 - 0)) with 1 by field. rewrite ln_1. ring. }
  assert (RM : true_rap (mom4 moving) = ln 2). { unfold true_rap, mom4, moving, mx, my, mz, me. cbn [en pz fst snd]. rewrite V3, V5. replace ((5 + 3) / (5 - 3)) with (2 * 2) by field. rewrite ln_mult by lra. field. }
  assert (VR : variance [0; ln 2] = ln 2 * ln 2 / 4) by (rewrite two_variance; field). assert (VP : variance (map pt4 [at_rest; moving]) = / 4) by (cbn [map]; rewrite PT1, PT2, two_variance; field).
  assert (SQ : sqrt (ln 2 * ln 2 / 4) = ln 2 / 2) by (replace (ln 2 * ln 2 / 4) with (ln 2 / 2 * (ln 2 / 2)) by field; apply sqrt_square; lra).
  assert (SQ2 : sqrt (/ 4) = / 2) by (replace (/ 4) with (/ 2 * / 2) by field; apply sqrt_square; lra).
  assert (EROW : forall i, map (case_dist i) (seq 0 2) = [0; ln 2]) by reflexivity.
  assert (TA : timelike tiny_tol fone fzero).
  { split; [exact FT|]. split; [exact F1|]. split; [reflexivity|]. rewrite VT, V1, V0, Rmult_1_l, P33, Rabs_R0. split; [apply Rinv_le_contravar; [apply pow_lt; lra | apply Rle_pow; [lra | lia]]|]. split; [lra|].
    replace (1 - 0) with (val fone) by (rewrite V1; ring). rewrite nearest_id by apply val_fmt. rewrite V1. lra. }
  assert (TM : timelike tiny_tol (lit 5 0) (lit 3 0)).
  { split; [exact FT|]. split; [exact F5|]. split; [exact F3|]. rewrite VT, V5, V3, Rmult_1_l, P33. split; [apply Rinv_le_contravar; [apply pow_lt; lra | apply Rle_pow; [lra | lia]]|]. split; [lra|].
    rewrite Rabs_pos_eq by lra. replace (5 - 3) with (val ftwo) by (rewrite V2; ring). rewrite nearest_id by apply val_fmt. rewrite V2. lra. }
  assert (QA : placed tiny_tol 1 2 at_rest). { split; [apply (US fone); [exact F1 | lra]|]. split; [exact TA|]. rewrite RA, PT1, Rabs_R0. split; lra. }
  assert (QM : placed tiny_tol 1 2 moving). { split; [apply (US ftwo); [exact F2 | lra]|]. split; [exact TM|]. rewrite RM, PT2, Rabs_pos_eq by lra. split; lra. }
  split; [apply ref_hypot_good|]. split; [apply ref_atan2_good|]. split; [apply ref_log_good|]. split; [apply ref_expm1_accurate|]. split; [|split; [|split; [|split; [|split; [|split; [|split; [|split; [|split]]]]]]]]; try lra.
  - intros p [<-|[<-|[<-|[]]]]; assumption.
  - intros [|[|i]] [|[|j]] p q Hp Hq; try discriminate Hp; try (destruct j; discriminate Hq); injection Hp as <-; injection Hq as <-; exists 0; (split; [apply axis_gap; cbn [fst]; unfold at_rest, moving, mx; cbn [fst]; lra|]); rewrite RA, ?RM; cbn [case_dist].
    + replace ((0 - 0) * (0 - 0) + 0 * 0) with 0 by ring. rewrite sqrt_0. reflexivity.
    + replace ((0 - ln 2) * (0 - ln 2) + 0 * 0) with (ln 2 * ln 2) by ring. rewrite sqrt_square; lra.
  - intros i [|j] _ _; cbn [case_dist]; lra.
  - split.
    + intros i _. change (length [at_rest; moving]) with 2%nat. rewrite EROW, VR, SQ. lra.
    + rewrite VP, SQ2. lra.
  - cbn [INR]. lra.
  - unfold plane_cost, pair_cost. change (length [at_rest; moving]) with 2%nat. rewrite EROW, VP, VR. cbn [nth map case_dist]. rewrite PT1. replace (- (0 * 0) / (2 * (ln 2 * ln 2 / 4))) with 0 by (field; lra). replace (- ((1 - 1) * (1 - 1)) / (2 * / 4)) with 0 by field. rewrite exp_0. ring.
  - unfold plane_cost, pair_cost. change (length [at_rest; moving]) with 2%nat. rewrite EROW, VP, VR. cbn [nth map case_dist]. rewrite PT1, PT2. replace (- (ln 2 * ln 2) / (2 * (ln 2 * ln 2 / 4))) with (-2) by (field; lra). replace (- ((1 - 2) * (1 - 2)) / (2 * / 4)) with (-2) by field. ring.
Qed.
(** arg_closest takes the first candidate, in any order of the additions. *)
Example C238_case_result : forall out, f_arg_closest ref_hypot ref_atan2 ref_log ref_expm1 tiny_tol [at_rest] [at_rest; moving] out -> out = Ok [0%nat].
Proof.
  intros out HO. destruct C238_case as (H1 & H2 & H3 & H4 & H5 & H6 & H7 & H8 & H9 & H10 & H11 & H12 & E0 & E1).
  destruct (C238_assignment ref_hypot ref_atan2 ref_log ref_expm1 1 ltac:(lra) H1 H2 H3 H4 tiny_tol [at_rest] [at_rest; moving] case_dist 1 1 2 16 out ltac:(cbn; lia) H5 H6 H7 ltac:(lra) ltac:(lra) H8 H9 H10 ltac:(lra) H11 H12 HO) as (idxs & -> & L & _ & RG & MIN).
  f_equal. destruct idxs as [|j [|]]; try discriminate L. pose proof (RG j (or_introl eq_refl)) as Hj. cbn in Hj.
  assert (j = 0 \/ j = 1)%nat as [-> | ->] by lia; [reflexivity|]. exfalso.
  specialize (MIN (fun _ => O) ltac:(split; [intros; cbn; lia | intros i i' A B _; cbn in A, B; lia])). cbv zeta in MIN. cbn [length seq map nth rsum] in MIN. rewrite E0, E1 in MIN. unfold index_error in MIN. cbn [INR] in MIN.
  pose proof u_b as [U0 U1]. assert (EXP : exp (-2) <= / 3). { replace (-2) with (- (2)) by ring. rewrite exp_Ropp. apply Rinv_le_contravar; [lra|]. pose proof (exp_ineq1_le 2). lra. } lra.
Qed.

(** A failure of the costs is a failure of arg_closest: one candidate, or two of the same transverse momentum. *)
Theorem C238_failure : forall hypot atan2 log expm1 tol focus cand out pt, fin pt -> Rabs (val pt) <= 2 ^ 1000 -> (length cand = 1 \/ length cand = 2)%nat ->
  (forall p, In p cand -> hypot (mx p) (my p) = pt) -> f_arg_closest hypot atan2 log expm1 tol focus cand out -> out = Err ZeroDivisionError.
Proof.
  intros hypot atan2 log expm1 tol focus cand out pt F B L H (M & HM & HO). enough (E : M = Err ZeroDivisionError) by (rewrite E in HO; exact HO).
  eapply C218_two_partial; [exact F | exact B | | | exact HM]; [rewrite map_length; exact L|]. intros p Hp. apply in_map_iff in Hp as (q & <- & Hq). apply H, Hq.
Qed.
Example C238_failure_case : let pt := ref_hypot fone fzero in fin pt /\ Rabs (val pt) <= 2 ^ 1000 /\ forall p, In p [at_rest; at_rest] -> ref_hypot (mx p) (my p) = pt.
Proof.
  intros pt. destruct (lit_int 1 ltac:(lia)) as (V1 & F1). fold fone in V1, F1.
  assert (E : sqrt (val fone * val fone + val fzero * val fzero) = val fone) by (rewrite V1; change (val fzero) with 0; replace (1 * 1 + 0 * 0) with 1 by ring; apply sqrt_1).
  destruct (of_R_ok (sqrt (val fone * val fone + val fzero * val fzero))) as (F & V); [rewrite E, nearest_id by apply val_fmt; apply val_lt|].
  split; [exact F|]. split; [|intros p [<-|[<-|[]]]; reflexivity]. unfold pt, ref_hypot. rewrite V, E, nearest_id by apply val_fmt. rewrite V1, Rabs_R1. apply pow_R1_Rle. lra.
Qed.
Print Assumptions C238_failure.
