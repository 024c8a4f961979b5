(** The double nearest to pi: Machin's series bounds PI closely enough. *)
From Coq Require Import ZArith QArith Qreals Reals Machin Lra Lia.
From Verif Require Import SpecIEEE Floats FloatBase FloatOps Floats5.
Open Scope R_scope.

Fixpoint qpow (x : Q) (n : nat) : Q := match n with O => 1%Q | S n => (x * qpow x n)%Q end.
Lemma qpow_R : forall n x, Q2R (qpow x n) = Q2R x ^ n.
Proof. induction n as [|n IH]; intros x; cbn [qpow pow]; [unfold Q2R; cbn; lra|]. rewrite Q2R_mult, IH. reflexivity. Qed.
Lemma q_of_nat : forall n, Q2R (inject_Z (Z.of_nat n)) = INR n.
Proof. intros n. unfold Q2R, inject_Z. cbn [Qnum Qden]. rewrite INR_IZR_INZ. change (IZR (Z.pos 1)) with 1. rewrite Rinv_1. ring. Qed.

Definition qratan (x : Q) (n : nat) : Q := (qpow x (2 * n + 1) / inject_Z (Z.of_nat (2 * n + 1)))%Q.
Lemma qratan_R : forall x n, Q2R (qratan x n) = Ratan_seq (Q2R x) n.
Proof.
  intros x n. unfold qratan, Ratan_seq. rewrite Q2R_div; [rewrite qpow_R, q_of_nat; reflexivity|].
  intros E. apply Qeq_eqR in E. rewrite q_of_nat in E. apply (not_0_INR (2 * n + 1)); [lia|]. rewrite E. unfold Q2R. cbn. lra.
Qed.
Definition qterm (n : nat) : Q := (qpow (-1 # 1) n * (2 * qratan (1 # 3) n + qratan (1 # 7) n))%Q.
Fixpoint qsum (n : nat) : Q := match n with O => qterm 0 | S m => Qred (qsum m + qterm (S m))%Q end.
Lemma qterm_R : forall n, Q2R (qterm n) = tg_alt PI_2_3_7_tg n.
Proof.
  intros n. unfold qterm, tg_alt, PI_2_3_7_tg. rewrite Q2R_mult, Q2R_plus, Q2R_mult, qpow_R, !qratan_R.
  replace (Q2R (-1 # 1)) with (-1) by (unfold Q2R; cbn; lra). replace (Q2R 2) with 2 by (unfold Q2R; cbn; lra).
  replace (Q2R (1 # 3)) with (/ 3) by (unfold Q2R; cbn; lra). replace (Q2R (1 # 7)) with (/ 7) by (unfold Q2R; cbn; lra). reflexivity.
Qed.
Lemma qsum_R : forall n, Q2R (qsum n) = sum_f_R0 (tg_alt PI_2_3_7_tg) n.
Proof.
  induction n as [|n IH]; cbn [qsum sum_f_R0]; [apply qterm_R|]. rewrite (Qeq_eqR _ _ (Qred_correct _)), Q2R_plus, IH, qterm_R. reflexivity.
Qed.

Lemma PI_close : (Q2R (884279719003555 # 281474976710656) + Q2R (11 # 10) * Q2R (qpow (1 # 2) 53) <= PI <= Q2R (884279719003555 # 281474976710656) + Q2R (111 # 100) * Q2R (qpow (1 # 2) 53)).
Proof.
  destruct (PI_2_3_7_ineq 12) as [L U]. change (S (2 * 12)) with 25%nat in L. change (2 * 12)%nat with 24%nat in U. rewrite <- qsum_R in L, U.
  rewrite <- !Q2R_mult, <- !Q2R_plus. split.
  - apply Rle_trans with (Q2R 4 * Q2R (qsum 25)); [rewrite <- Q2R_mult; apply Qle_Rle, Qle_bool_iff; vm_compute; reflexivity|].
    replace (Q2R 4) with 4 by (unfold Q2R; cbn; lra). lra.
  - apply Rle_trans with (Q2R 4 * Q2R (qsum 24)); [|rewrite <- Q2R_mult; apply Qle_Rle, Qle_bool_iff; vm_compute; reflexivity].
    replace (Q2R 4) with 4 by (unfold Q2R; cbn; lra). lra.
Qed.

(** The literal of the code is PI rounded: the error is about 1.1 units of 2^-53 (PI lies between 2 and 4, so half an ulp is 2). *)
Lemma fpi_ok : fin fpi /\ Rabs (val fpi - PI) <= 12 / 10 * u.
Proof.
  destruct (lit_ok 7074237752028440 (-51) ltac:(lia) ltac:(lia)) as (V & F). split; [exact F|]. fold fpi in V.
  pose proof PI_close as P. rewrite qpow_R in P. replace (Q2R (1 # 2)) with (/ 2) in P by (unfold Q2R; cbn; lra). rewrite pow_inv in P. fold u in P.
  assert (E : val fpi = Q2R (884279719003555 # 281474976710656)).
  { rewrite V. unfold Q2R. cbn. lra. }
  rewrite E. set (x := Q2R (884279719003555 # 281474976710656)) in *. replace (Q2R (11 # 10)) with (11 / 10) in P by (unfold Q2R; cbn; lra). replace (Q2R (111 # 100)) with (111 / 100) in P by (unfold Q2R; cbn; lra).
  assert (U0 : 0 < u) by (unfold u; apply Rinv_0_lt_compat, pow_lt; lra). clearbody x. apply Rabs_le. lra.
Qed.
