(** combined_mass at every magnitude: C198, C199. *)
From Coq Require Import ZArith Reals List Bool Lia Lra Permutation.
From Flocq Require Import Core BinarySingleNaN.
From Verif Require Import SpecIEEE Floats FloatBase FloatOps Floats6 P_Float P_Float3 P_Float5 Floats3 P_Float13.
Import ListNotations.
Open Scope R_scope.

Definition minus_inf : f64 := B754_infinity true.
(** finite and at most B, or minus infinity *)
Definition below (B : R) (x : f64) : Prop := (fin x /\ val x <= B) \/ x = minus_inf.

Lemma fadd_neg_overflow : forall x y, fin x -> fin y -> ~ Rabs (nearest (val x + val y)) < bpow radix2 1024 -> val x + val y < 0 -> fadd x y = minus_inf.
Proof.
  intros x y Fx Fy H N. pose proof (Bplus_correct 53 1024 prec_pos prec_emax mode_NE x y Fx Fy) as C.
  match type of C with context [Rlt_bool (Rabs (round ?b ?f ?r ?v)) ?w] => change (round b f r v) with (nearest (val x + val y)) in C end.
  rewrite Rlt_bool_false in C by lra. destruct C as (C & S). unfold fadd.
  assert (SX : Bsign x = true).
  { destruct (Bsign x) eqn:E; [reflexivity|]. exfalso. symmetry in S. rename S into S'.
    assert (X0 : 0 <= val x). { destruct (Rle_lt_dec 0 (val x)); [assumption|]. pose proof (sign_neg x Fx ltac:(assumption)) as Q. unfold negative in Q. congruence. }
    assert (Y0 : 0 <= val y). { destruct (Rle_lt_dec 0 (val y)); [assumption|]. pose proof (sign_neg y Fy ltac:(assumption)) as Q. unfold negative in Q. congruence. }
    lra. }
  rewrite SX in C. apply B2SF_inj. rewrite C. reflexivity.
Qed.
Lemma below_add : forall A B x y, 0 <= A -> B <= 0 -> (exists a : f64, fin a /\ val a = A) -> below A x -> below B y -> below A (fadd x y).
Proof.
  intros A B x y HA HB (a & Fa & Va) [(Fx & Hx)| -> ] [(Fy & Hy)| -> ]; [|destruct x as [[]|[]| |[] ? ? ?]; try discriminate Fx; right; reflexivity | destruct y as [[]|[]| |[] ? ? ?]; try discriminate Fy; right; reflexivity | right; reflexivity].
  destruct (Rlt_dec (Rabs (nearest (val x + val y))) (bpow radix2 1024)) as [L|L].
  - destruct (fadd_ok x y Fx Fy L) as (V & F). left. split; [exact F|]. rewrite V, <- Va. apply nearest_le_fmt; [apply val_fmt | lra].
  - destruct (Rlt_le_dec (val x + val y) 0) as [N|N]; [right; apply fadd_neg_overflow; assumption|].
    exfalso. apply L. assert (0 <= nearest (val x + val y)) by (rewrite <- nearest_0; apply nearest_le; exact N).
    rewrite Rabs_pos_eq by assumption. eapply Rle_lt_trans; [apply (nearest_le_fmt _ (val a)); [apply val_fmt | lra]|].
    eapply Rle_lt_trans; [apply Rle_abs | apply val_lt].
Qed.
Lemma below_neg : forall t, Forall (fun x => fin x /\ val x <= 0) (leaves t) -> below 0 (f_sum t).
Proof.
  induction t as [x|l IHl r IHr]; intros H; cbn [leaves f_sum] in *; [inversion H; subst; left; assumption|].
  apply Forall_app in H as (H1 & H2). apply (below_add 0 0); try lra; [exists fzero; split; reflexivity | auto | auto].
Qed.
Lemma below_pos : forall t a L, fin a -> 0 <= val a -> Permutation (leaves t) (a :: L) -> Forall (fun x => fin x /\ val x <= 0) L -> below (val a) (f_sum t).
Proof.
  induction t as [x|l IHl r IHr]; intros a L Fa HA P F; cbn [leaves f_sum] in *.
  - apply Permutation_length_1_inv in P. injection P as -> ->. left. split; [exact Fa | lra].
  - assert (I : In a (leaves l ++ leaves r)) by (eapply Permutation_in; [symmetry; exact P | left; reflexivity]).
    assert (Q : forall l1 l2, leaves l = l1 ++ a :: l2 -> below (val a) (fadd (f_sum l) (f_sum r))).
    { intros l1 l2 E. rewrite E, <- app_assoc in P. cbn [app] in P. apply Permutation_sym, Permutation_cons_app_inv, Permutation_sym in P.
      assert (G : Forall (fun x => fin x /\ val x <= 0) (l1 ++ l2 ++ leaves r)) by (eapply Permutation_Forall; [symmetry; exact P | exact F]).
      rewrite app_assoc in G. apply Forall_app in G as (G1 & G2). apply (below_add (val a) 0); try lra; [exists a; auto | | apply below_neg; exact G2].
      apply (IHl a (l1 ++ l2)); [exact Fa | exact HA | rewrite E; symmetry; apply Permutation_middle | exact G1]. }
    assert (Q' : forall l1 l2, leaves r = l1 ++ a :: l2 -> below (val a) (fadd (f_sum l) (f_sum r))).
    { intros l1 l2 E. rewrite E, app_assoc in P. apply Permutation_sym, Permutation_cons_app_inv, Permutation_sym in P.
      assert (G : Forall (fun x => fin x /\ val x <= 0) ((leaves l ++ l1) ++ l2)) by (eapply Permutation_Forall; [symmetry; exact P | exact F]).
      rewrite <- app_assoc in G. apply Forall_app in G as (G1 & G2). rewrite fadd_comm. apply (below_add (val a) 0); try lra; [exists a; auto | | apply below_neg; exact G1].
      apply (IHr a (l1 ++ l2)); [exact Fa | exact HA | rewrite E; symmetry; apply Permutation_middle | exact G2]. }
    apply in_app_or in I as [I|I]; apply in_split in I as (l1 & l2 & E); eauto.
Qed.

Lemma square_fin : forall s, is_finite (fmul s s) = true -> fin s -> fin (fmul s s) /\ 0 <= val (fmul s s).
Proof.
  intros s H F. split; [exact H|]. pose proof (Bmult_correct 53 1024 prec_pos prec_emax mode_NE s s) as C.
  match type of C with context [Rlt_bool (Rabs (round ?b ?f ?r ?v)) ?w] => change (round b f r v) with (nearest (val s * val s)) in C end.
  destruct (Rlt_dec (Rabs (nearest (val s * val s))) (bpow radix2 1024)) as [L|L].
  - rewrite Rlt_bool_true in C by exact L. destruct C as (C & _). unfold val, fmul. rewrite C. rewrite <- nearest_0. apply nearest_le, Rle_0_sqr.
  - rewrite Rlt_bool_false in C by lra. exfalso. unfold fmul in H. rewrite xorb_nilpotent in C. rewrite <- is_finite_SF_B2SF, C in H. discriminate H.
Qed.
Lemma times_unit : forall x s, fin x -> val (fmul x (lit s 0)) = val x * IZR s /\ fin (fmul x (lit s 0)) \/ ~ (s = 1%Z \/ s = (-1)%Z).
Proof.
  intros x s F. destruct (Z.eq_dec s 1) as [->|N1]; [left | destruct (Z.eq_dec s (-1)) as [->|N2]; [left | right; tauto]].
  - destruct (lit_int 1 ltac:(lia)) as (V & G). assert (E : nearest (val x * val (lit 1 0)) = val x * 1) by (rewrite V, Rmult_1_r; apply nearest_id, val_fmt).
    destruct (fmul_ok x (lit 1 0) F G) as (W & K & _); [rewrite E, Rmult_1_r; apply val_lt|]. rewrite W, E. auto.
  - destruct (lit_int (-1) ltac:(lia)) as (V & G). assert (E : nearest (val x * val (lit (-1) 0)) = val x * -1).
    { rewrite V. replace (val x * -1) with (- val x) by ring. rewrite nearest_opp. f_equal. apply nearest_id, val_fmt. }
    destruct (fmul_ok x (lit (-1) 0) F G) as (W & K & _); [rewrite E; replace (val x * -1) with (- val x) by ring; rewrite Rabs_Ropp; apply val_lt|]. rewrite W, E. auto.
Qed.

(** * C198: for finite momenta of whatever size, whatever the order of the additions: a finite number, not negative, never NaN. *)
Lemma combined_fin : forall x y z e t, fin x -> fin y -> fin z -> fin e -> forallb (fun s => is_finite (fmul s s)) [x; y; z; e] = true ->
  Permutation (leaves t) (f_minkowski x y z e) -> fin (f_combined t) /\ 0 <= val (f_combined t).
Proof.
  intros x y z e t Fx Fy Fz Fe SQ P. cbn [forallb] in SQ. repeat (apply andb_prop in SQ; destruct SQ as (?S & SQ)). clear SQ.
  destruct (square_fin x S Fx) as (Gx & Wx). destruct (square_fin y S0 Fy) as (Gy & Wy). destruct (square_fin z S1 Fz) as (Gz & Wz). destruct (square_fin e S2 Fe) as (Ge & We).
  assert (N : forall q, fin q -> 0 <= val q -> fin (fmul q (lit (-1) 0)) /\ val (fmul q (lit (-1) 0)) <= 0).
  { intros q Fq Hq. destruct (times_unit q (-1) Fq) as [(V & F)|H]; [split; [exact F | rewrite V; lra] | tauto]. }
  assert (O : fin (fmul (fmul e e) fone) /\ val (fmul (fmul e e) fone) = val (fmul e e)).
  { destruct (times_unit (fmul e e) 1 Ge) as [(V & F)|H]; [split; [exact F | unfold fone; rewrite V; ring] | tauto]. }
  unfold f_minkowski in P. set (a := fmul (fmul e e) fone) in *. set (L := [fmul (fmul x x) (lit (-1) 0); fmul (fmul y y) (lit (-1) 0); fmul (fmul z z) (lit (-1) 0)]).
  assert (P' : Permutation (leaves t) (a :: L)). { rewrite P. change ([fmul (fmul x x) (lit (-1) 0); fmul (fmul y y) (lit (-1) 0); fmul (fmul z z) (lit (-1) 0); a]) with (L ++ [a]). symmetry. apply Permutation_cons_append. }
  assert (FL : Forall (fun x => fin x /\ val x <= 0) L) by (unfold L; repeat (apply Forall_cons; [apply N; assumption|]); apply Forall_nil).
  destruct O as (O1 & O2). pose proof (below_pos t a L O1 ltac:(lra) P' FL) as B. unfold f_combined. cbv zeta. destruct B as [(F & _)|E].
  - destruct (flt (f_sum t) fzero) eqn:E; [split; [reflexivity | change (val fzero) with 0; lra]|].
    assert (V : 0 <= val (f_sum t)).
    { unfold flt in E. pose proof (Bltb_correct 53 1024 (f_sum t) fzero F eq_refl) as C. fold (val (f_sum t)) in C. change (B2R fzero) with 0 in C. rewrite E in C. symmetry in C.
      destruct (Rlt_bool_spec (val (f_sum t)) 0); [discriminate C | assumption]. }
    destruct (fsqrt_ok _ F V) as (W & G). split; [exact G|]. rewrite W, <- nearest_0. apply nearest_le, sqrt_pos.
  - rewrite E. change (flt minus_inf fzero) with true. cbv iota. split; [reflexivity | change (val fzero) with 0; lra].
Qed.
Lemma quiet_fin : forall t, quiet t = true -> fin (f_sum t).
Proof. intros [x|l r] H; cbn [quiet] in H; apply andb_prop in H; apply H. Qed.

Theorem C198_total : forall tx ty tz te t, Forall fin (leaves tx ++ leaves ty ++ leaves tz ++ leaves te) ->
  Permutation (leaves t) (f_minkowski (f_sum tx) (f_sum ty) (f_sum tz) (f_sum te)) ->
  fin (f_combined_mass tx ty tz te t) /\ 0 <= val (f_combined_mass tx ty tz te t).
Proof.
  intros tx ty tz te t _ P. unfold f_combined_mass. (* the model is meant for finite momenta only: hence the first hypothesis *)
  destruct (quiet tx) eqn:Qx; cbn [andb]; [|split; [reflexivity | change (val fzero) with 0; lra]].
  destruct (quiet ty) eqn:Qy; cbn [andb]; [|split; [reflexivity | change (val fzero) with 0; lra]].
  destruct (quiet tz) eqn:Qz; cbn [andb]; [|split; [reflexivity | change (val fzero) with 0; lra]].
  destruct (quiet te) eqn:Qe; cbn [andb]; [|split; [reflexivity | change (val fzero) with 0; lra]].
  destruct (forallb _ _) eqn:SQ; [|split; [reflexivity | change (val fzero) with 0; lra]].
  eapply combined_fin; [apply quiet_fin; exact Qx | apply quiet_fin; exact Qy | apply quiet_fin; exact Qz | apply quiet_fin; exact Qe | exact SQ | exact P].
Qed.

(** * C199 *)
Lemma quiet_small : forall t, Forall fin (leaves t) -> (1 + u) ^ depth t * total_abs (leaves t) <= huge -> quiet t = true.
Proof.
  induction t as [x|l IHl r IHr]; intros F H.
  - cbn [quiet f_sum]. inversion F; subst. rewrite andb_true_r. assumption.
  - destruct (sum_main (Node l r) F H) as (G & _). cbn [quiet]. rewrite G. cbn [andb leaves] in *. apply Forall_app in F as (F1 & F2). rewrite total_abs_app in H.
    pose proof (total_abs_pos (leaves l)). pose proof (total_abs_pos (leaves r)). pose proof u_pos. cbn [depth] in H.
    assert (M : forall d (s : R), 0 <= s -> (d <= Nat.max (depth l) (depth r))%nat -> s <= total_abs (leaves l) + total_abs (leaves r) -> (1 + u) ^ d * s <= huge).
    { intros d s S0 D1 S1. eapply Rle_trans; [|exact H]. apply Rmult_le_compat; [apply pow_le; lra | exact S0 | apply Rle_pow; [lra | lia] | exact S1]. }
    rewrite IHl, IHr; [reflexivity | exact F2 | apply M; [assumption | lia | lra] | exact F1 | apply M; [assumption | lia | lra]].
Qed.
Lemma square_small : forall s, fin s -> Rabs (val s) <= 2 ^ 500 -> is_finite (fmul s s) = true.
Proof.
  intros s F H. destruct (fmul_ok s s F F) as (_ & G & _); [|exact G]. apply no_overflow. rewrite Rabs_mult. apply Rle_trans with (2 ^ 500 * 2 ^ 500).
  - apply Rmult_le_compat; try apply Rabs_pos; exact H.
  - rewrite <- pow_add. unfold huge. apply Rle_pow; [lra | lia].
Qed.

(** Below 2^499 in total: nothing warns, and the accuracy is that of C195. *)
Theorem C199_small_partial : forall ps n tx ty tz te t, length ps = S n -> INR n * u <= / 1000 -> Forall fin_mom ps ->
  Permutation (leaves tx) (map mx ps) -> Permutation (leaves ty) (map my ps) -> Permutation (leaves tz) (map mz ps) -> Permutation (leaves te) (map me ps) ->
  Permutation (leaves t) (f_minkowski (f_sum tx) (f_sum ty) (f_sum tz) (f_sum te)) ->
  total_abs (map mx ps) <= 2 ^ 499 -> total_abs (map my ps) <= 2 ^ 499 -> total_abs (map mz ps) <= 2 ^ 499 -> total_abs (map me ps) <= 2 ^ 499 ->
  let r := f_combined_mass tx ty tz te t in
  let sq x := x * x in
  let exact := sq (total (map me ps)) - (sq (total (map mx ps)) + sq (total (map my ps)) + sq (total (map mz ps))) in
  let size := sq (total_abs (map me ps)) + (sq (total_abs (map mx ps)) + sq (total_abs (map my ps)) + sq (total_abs (map mz ps))) in
  Rabs (val r * val r - Rmax 0 exact) <= (3 * INR n + 8) * u * size + 8 * u * min_normal.
Proof.
  intros ps n tx ty tz te t HL HN HF Px Py Pz Pe Pt Ax Ay Az Ae r sq exact size.
  assert (C : forall f t', (forall p, fin_mom p -> fin (f p)) -> Permutation (leaves t') (map f ps) -> total_abs (map f ps) <= 2 ^ 499 -> quiet t' = true /\ is_finite (fmul (f_sum t') (f_sum t')) = true).
  { intros f t' Hf P A. assert (FF : Forall (fun p => fin (f p)) ps) by (eapply Forall_impl; [|exact HF]; exact Hf).
    destruct (comp_sum f ps n t' HL HN P FF A) as (F & B & _). split; [|apply square_small; assumption].
    apply quiet_small; [eapply Permutation_Forall; [symmetry; exact P|]; apply Forall_map; exact FF|]. destruct (total_perm _ _ P) as (_ & ->).
    assert (D : (depth t' <= n)%nat). { pose proof (depth_lt t') as D. rewrite (Permutation_length P), map_length, HL in D. lia. }
    pose proof u_pos. assert (E : (1 + u) ^ depth t' <= 2).
    { apply Rle_trans with ((1 + u) ^ n); [apply Rle_pow; [lra | exact D]|]. destruct (growth2 n HN) as (G1 & G2). assert ((1 + u) ^ n * 1 <= (1 + u) ^ n * (1 + u) ^ n) by (apply Rmult_le_compat_l; lra). lra. }
    apply Rle_trans with (2 * 2 ^ 499); [|change (2 * 2 ^ 499) with (2 ^ 500); unfold huge; apply Rle_pow; [lra | lia]].
    apply Rmult_le_compat; [apply pow_le; lra | apply total_abs_pos | exact E | exact A]. }
  destruct (C mx tx ltac:(intros p Hp; apply Hp) Px Ax) as (Q1 & S1). destruct (C my ty ltac:(intros p Hp; apply Hp) Py Ay) as (Q2 & S2).
  destruct (C mz tz ltac:(intros p Hp; apply Hp) Pz Az) as (Q3 & S3). destruct (C me te ltac:(intros p Hp; apply Hp) Pe Ae) as (Q4 & S4).
  assert (E : r = f_combined t). { unfold r, f_combined_mass. rewrite Q1, Q2, Q3, Q4. cbn [andb forallb]. rewrite S1, S2, S3, S4. reflexivity. }
  rewrite E. apply (C195_combined ps n tx ty tz te t HL HN HF Px Py Pz Pe Pt Ax Ay Az Ae).
Qed.

(** One component of the total momentum of 2^512 or more: the square overflows and the mass is reported as 0. *)
Lemma square_big : forall s, fin s -> 2 ^ 512 <= Rabs (val s) -> is_finite (fmul s s) = false.
Proof.
  intros s F H. destruct (is_finite (fmul s s)) eqn:E; [exfalso | reflexivity].
  pose proof (Bmult_correct 53 1024 prec_pos prec_emax mode_NE s s) as C.
  match type of C with context [Rlt_bool (Rabs (round ?b ?f ?r ?v)) ?w] => change (round b f r v) with (nearest (val s * val s)) in C end.
  assert (B : bpow radix2 1024 <= Rabs (nearest (val s * val s))).
  { rewrite <- nearest_abs. apply nearest_ge_fmt; [apply fmt_bpow; lia|]. change (1024)%Z with (Z.of_nat 1024). rewrite bpow_pos_pow. change 1024%nat with (512 + 512)%nat. rewrite pow_add, Rabs_mult.
    pose proof (pow_lt 2 512 ltac:(lra)). apply Rmult_le_compat; lra. }
  rewrite Rlt_bool_false in C by exact B. unfold fmul in E. rewrite <- is_finite_SF_B2SF, C, xorb_nilpotent in E. discriminate E.
Qed.
Theorem C199_overflow_refuted : forall tx ty tz te t s, In s [f_sum tx; f_sum ty; f_sum tz; f_sum te] -> fin s -> 2 ^ 512 <= Rabs (val s) ->
  f_combined_mass tx ty tz te t = fzero.
Proof.
  intros tx ty tz te t s Hs F H. pose proof (square_big s F H) as B. unfold f_combined_mass.
  assert (E : forallb (fun s => is_finite (fmul s s)) [f_sum tx; f_sum ty; f_sum tz; f_sum te] = false).
  { apply not_true_is_false. intros T. rewrite forallb_forall in T. rewrite (T s Hs) in B. discriminate B. }
  rewrite E, andb_false_r. reflexivity.
Qed.
(** A particle at rest of mass 2^512 (about 10^154): combined mass 0. *)
Example C199_case : val (lit 1 512) = 2 ^ 512 /\ fin (lit 1 512) /\
  f_combined_mass (Leaf fzero) (Leaf fzero) (Leaf fzero) (Leaf (lit 1 512)) (Node (Node (Leaf fzero) (Leaf fzero)) (Node (Leaf fzero) (Leaf fzero))) = fzero.
Proof.
  destruct (lit_ok 1 512 ltac:(lia) ltac:(lia)) as (V & F). assert (E : val (lit 1 512) = 2 ^ 512) by (rewrite V, Rmult_1_l; change 512%Z with (Z.of_nat 512); apply bpow_pos_pow).
  split; [exact E|]. split; [exact F|]. apply (C199_overflow_refuted _ _ _ _ _ (lit 1 512)); [right; right; right; left; reflexivity | exact F |].
  rewrite E, Rabs_pos_eq by (apply pow_le; lra). apply Rle_refl.
Qed.
(** The hypotheses of C198 are met by the largest doubles: their sums overflow. *)
Example C198_case : let big := lit 9007199254740991 971 in let t := Node (Leaf big) (Leaf big) in
  is_finite big = true /\ f_sum t = B754_infinity false /\ f_combined_mass t t t t (Leaf fzero) = fzero.
Proof. cbv zeta. repeat split. Qed.

Print Assumptions C198_total.
Print Assumptions C199_small_partial.
Print Assumptions C199_overflow_refuted.
