(** Properties of the float steps of transform.py, data.py and np.sum in IEEE double arithmetic. *)
From Coq Require Import ZArith Reals List Bool Lia Lra Permutation.
From Flocq Require Import Core BinarySingleNaN Sterbenz.
From Verif Require Import SpecIEEE Floats FloatBase FloatOps P_Float.
Import ListNotations.
Open Scope R_scope.

(** * C145 *)

(** the longest chain of additions of an order *)
Fixpoint depth (t : order) : nat := match t with Leaf _ => 0%nat | Node l r => S (Nat.max (depth l) (depth r)) end.

Lemma total_app : forall l m, total (l ++ m) = total l + total m.
Proof. intros l m. unfold total. rewrite map_app. induction (map val l) as [|x k IH]; cbn [app fold_right]; [ring|]. rewrite IH. ring. Qed.
Lemma total_abs_app : forall l m, total_abs (l ++ m) = total_abs l + total_abs m.
Proof. intros l m. unfold total_abs. rewrite map_app. induction (map (fun x => Rabs (val x)) l) as [|x k IH]; cbn [app fold_right]; [ring|]. rewrite IH. ring. Qed.
Lemma total_abs_pos : forall l, 0 <= total_abs l.
Proof. induction l as [|x l IH]; unfold total_abs in *; cbn [map fold_right]; [lra|]. pose proof (Rabs_pos (val x)). lra. Qed.
Lemma total_le : forall l, Rabs (total l) <= total_abs l.
Proof. induction l as [|x l IH]; unfold total, total_abs in *; cbn [map fold_right]; [rewrite Rabs_R0; lra|].
  eapply Rle_trans; [apply Rabs_triang|]. lra. Qed.
Lemma depth_lt : forall t, (depth t < length (leaves t))%nat.
Proof. induction t as [x|l IHl r IHr]; cbn [depth leaves length]; [lia|]. rewrite app_length. lia. Qed.

Lemma sum_main : forall t, Forall fin (leaves t) -> (1 + u) ^ depth t * total_abs (leaves t) <= huge ->
  fin (f_sum t) /\ Rabs (val (f_sum t) - total (leaves t)) <= ((1 + u) ^ depth t - 1) * total_abs (leaves t).
Proof.
  pose proof u_pos as U0.
  assert (P1 : forall n, 1 <= (1 + u) ^ n) by (intros n; apply pow_R1_Rle; lra).
  assert (PM : forall n m, (n <= m)%nat -> (1 + u) ^ n <= (1 + u) ^ m) by (intros n m H; apply Rle_pow; [lra | exact H]).
  induction t as [x|l IHl r IHr]; intros HF HB.
  - cbn [leaves f_sum depth pow] in *. inversion_clear HF. split; [assumption|]. unfold total. cbn [map fold_right].
    replace (val x - (val x + 0)) with 0 by ring. rewrite Rabs_R0. lra.
  - cbn [leaves f_sum depth] in *. apply Forall_app in HF. destruct HF as [Fl Fr]. rewrite total_app, total_abs_app in *.
    pose proof (total_abs_pos (leaves l)) as Al. pose proof (total_abs_pos (leaves r)) as Ar.
    set (d := Nat.max (depth l) (depth r)) in *. set (g := (1 + u) ^ d). change ((1 + u) ^ S d) with ((1 + u) * g) in *.
    assert (Gl : (1 + u) ^ depth l <= g) by (apply PM; lia). assert (Gr : (1 + u) ^ depth r <= g) by (apply PM; lia).
    assert (G1 : 1 <= g) by apply P1. pose proof (P1 (depth l)) as L1. pose proof (P1 (depth r)) as R1.
    set (gl := (1 + u) ^ depth l) in *. set (gr := (1 + u) ^ depth r) in *. clearbody g gl gr.
    set (tl := total_abs (leaves l)) in *. set (tr := total_abs (leaves r)) in *.
    assert (Bl0 : gl * tl <= g * tl) by (apply Rmult_le_compat_r; lra). assert (Br0 : gr * tr <= g * tr) by (apply Rmult_le_compat_r; lra).
    assert (Gt : 0 <= g * tl) by (apply Rmult_le_pos; lra). assert (Gt' : 0 <= g * tr) by (apply Rmult_le_pos; lra).
    assert (HB' : g * tl + g * tr <= huge). { assert (0 <= u * (g * tl + g * tr)) by (apply Rmult_le_pos; lra). lra. }
    assert (Bl : gl * tl <= huge) by lra. assert (Br : gr * tr <= huge) by lra.
    destruct (IHl Fl Bl) as (F1 & E1). destruct (IHr Fr Br) as (F2 & E2). pose proof (total_le (leaves l)) as T1. pose proof (total_le (leaves r)) as T2.
    fold tl in T1. fold tr in T2. clearbody tl tr. clear IHl IHr.
    assert (M1 : Rabs (val (f_sum l)) <= g * tl).
    { replace (val (f_sum l)) with (val (f_sum l) - total (leaves l) + total (leaves l)) by ring. eapply Rle_trans; [apply Rabs_triang|]. lra. }
    assert (M2 : Rabs (val (f_sum r)) <= g * tr).
    { replace (val (f_sum r)) with (val (f_sum r) - total (leaves r) + total (leaves r)) by ring. eapply Rle_trans; [apply Rabs_triang|]. lra. }
    destruct (fadd_ok _ _ F1 F2) as (V & F). { apply no_overflow. eapply Rle_trans; [apply Rabs_triang|]. lra. }
    split; [exact F|]. destruct (add_rel (f_sum l) (f_sum r)) as (e & He & Ee). rewrite V, Ee.
    set (a := val (f_sum l)) in *. set (b := val (f_sum r)) in *. clearbody a b.
    replace ((a + b) * (1 + e) - (total (leaves l) + total (leaves r))) with ((a - total (leaves l)) + (b - total (leaves r)) + (a + b) * e) by ring.
    eapply Rle_trans; [apply Rabs_triang|]. eapply Rle_trans; [apply Rplus_le_compat_r, Rabs_triang|].
    assert (Q : Rabs ((a + b) * e) <= (g * tl + g * tr) * u).
    { rewrite Rabs_mult. apply Rmult_le_compat; try apply Rabs_pos; [|exact He]. eapply Rle_trans; [apply Rabs_triang|]. lra. }
    assert (X1 : (gl - 1) * tl <= (g - 1) * tl) by (apply Rmult_le_compat_r; lra). assert (X2 : (gr - 1) * tr <= (g - 1) * tr) by (apply Rmult_le_compat_r; lra).
    lra.
Qed.

Theorem C145_sum : forall t n, length (leaves t) = S n -> Forall fin (leaves t) -> (1 + u) ^ n * total_abs (leaves t) <= huge ->
  fin (f_sum t) /\ Rabs (val (f_sum t) - total (leaves t)) <= ((1 + u) ^ n - 1) * total_abs (leaves t).
Proof. intros t n HL HF HB. pose proof (depth_lt t) as D. pose proof u_pos. assert (L : (1 + u) ^ depth t <= (1 + u) ^ n) by (apply Rle_pow; [lra | lia]).
  pose proof (total_abs_pos (leaves t)) as P. destruct (sum_main t HF) as (F & E); [nra|]. split; [exact F|]. eapply Rle_trans; [exact E|].
  apply Rmult_le_compat_r; lra. Qed.

(** Balanced (pairwise) orders are far better: the exponent is the depth of the tree. *)
Theorem C145_depth : forall t, Forall fin (leaves t) -> (1 + u) ^ depth t * total_abs (leaves t) <= huge ->
  fin (f_sum t) /\ Rabs (val (f_sum t) - total (leaves t)) <= ((1 + u) ^ depth t - 1) * total_abs (leaves t).
Proof. exact sum_main. Qed.

Lemma total_perm : forall l m, Permutation l m -> total l = total m /\ total_abs l = total_abs m.
Proof. intros l m H. unfold total, total_abs. induction H as [|x l m H [A B]|x y l|l m k H [A B] H' [A' B']]; cbn [map fold_right]; split; lra. Qed.

(** Any two orders of addition of the same momenta, in any sequence, agree up to twice that bound. *)
Theorem C145_orders : forall t t' n, Permutation (leaves t) (leaves t') -> length (leaves t) = S n -> Forall fin (leaves t) ->
  (1 + u) ^ n * total_abs (leaves t) <= huge ->
  Rabs (val (f_sum t) - val (f_sum t')) <= 2 * ((1 + u) ^ n - 1) * total_abs (leaves t).
Proof. intros t t' n HP HL HF HB. destruct (total_perm _ _ HP) as (Q1 & Q2). destruct (C145_sum t n HL HF HB) as (_ & E).
  assert (HL' : length (leaves t') = S n) by (rewrite <- HL; symmetry; apply Permutation_length, HP).
  assert (HF' : Forall fin (leaves t')) by (eapply Permutation_Forall; eassumption).
  destruct (C145_sum t' n HL' HF') as (_ & E'); [rewrite <- Q2; exact HB|]. rewrite <- Q1, <- Q2 in E'.
  replace (val (f_sum t) - val (f_sum t')) with ((val (f_sum t) - total (leaves t)) - (val (f_sum t') - total (leaves t))) by ring.
  unfold Rminus at 1. eapply Rle_trans; [apply Rabs_triang|]. rewrite Rabs_Ropp. lra. Qed.
Print Assumptions C145_sum.
Print Assumptions C145_depth.
Print Assumptions C145_orders.

(** 2^53 + 1 + 1: left to right the ones are lost, the other order keeps them. *)
Example C145_case :
  let a := Node (Node (Leaf (lit 1 53)) (Leaf (lit 1 0))) (Leaf (lit 1 0)) in
  let b := Node (Leaf (lit 1 53)) (Node (Leaf (lit 1 0)) (Leaf (lit 1 0))) in
  leaves a = leaves b /\ f_sum a = lit 1 53 /\ f_sum b = lit (2 ^ 52 + 1) 1 /\ Forall fin (leaves a) /\ (1 + u) ^ 2 * total_abs (leaves a) <= huge.
Proof.
  cbv zeta. split; [reflexivity|]. split; [apply B2SF_inj; vm_compute; reflexivity|]. split; [apply B2SF_inj; vm_compute; reflexivity|].
  split; [repeat constructor|]. destruct (lit_int 1 ltac:(lia)) as (V1 & _). destruct (lit_ok 1 53 ltac:(lia) ltac:(lia)) as (V53 & _).
  unfold total_abs. cbn [leaves app map fold_right]. rewrite V1, V53. change (bpow radix2 53) with (IZR (2 ^ 53)). rewrite !Rabs_pos_eq by (try rewrite <- mult_IZR; apply IZR_le; lia).
  pose proof u_pos. pose proof u_small. assert ((1 + u) ^ 2 <= 2) by (cbn [pow]; nra).
  assert (2 ^ 60 <= huge) by (unfold huge; apply Rle_pow; [lra | lia]).
  assert (E60 : 2 ^ 60 = IZR (2 ^ 60)) by (rewrite (pow_IZR 2 60); reflexivity). rewrite E60 in *. rewrite <- mult_IZR, <- !plus_IZR.
  apply Rle_trans with (2 * IZR (2 ^ 59)); [|rewrite <- mult_IZR; change (2 * 2 ^ 59)%Z with (2 ^ 60)%Z; assumption].
  apply Rmult_le_compat; [apply pow_le; lra | apply IZR_le; lia | assumption | apply IZR_le; lia].
Qed.

(** * C146 *)

Theorem C146_split : forall parent child, fin parent -> fin child -> Rabs (val parent) + Rabs (val child) <= huge ->
  let c := f_children parent child in
  fin (fst c) /\ fin (snd c) /\ fst c = child
  /\ Rabs (val (fst c) + val (snd c) - val parent) <= u * Rabs (val parent - val child)
  /\ (val parent / 2 <= val child <= 2 * val parent -> val (fst c) + val (snd c) = val parent).
Proof.
  intros p c Fp Fc H. unfold f_children. cbn [fst snd]. split; [exact Fc|].
  destruct (fsub_ok p c Fp Fc) as (V & F & _). { apply no_overflow. unfold Rminus. eapply Rle_trans; [apply Rabs_triang|]. rewrite Rabs_Ropp. exact H. }
  split; [exact F|]. split; [reflexivity|]. split.
  - rewrite V. destruct (sub_rel p c) as (e & He & ->). replace (val c + (val p - val c) * (1 + e) - val p) with ((val p - val c) * e) by ring.
    rewrite Rabs_mult, Rmult_comm. apply Rmult_le_compat_r; [apply Rabs_pos | exact He].
  - intros [L U]. rewrite V. rewrite nearest_id; [ring|]. replace (val p - val c) with (- (val c - val p)) by ring. apply generic_format_opp.
    apply sterbenz; try apply val_fmt; try typeclasses eauto. split; lra. Qed.

(** The energies of the children of a split with 0 <= z <= 1 are not negative, not above the parent's, and add up to it within u times itself. *)
Theorem C146_energy : forall z parent, fin z -> fin parent -> 0 <= val z <= 1 -> 0 <= val parent <= huge / 2 ->
  let c := f_energies z parent in
  fin (fst c) /\ fin (snd c) /\ 0 <= val (fst c) <= val parent /\ 0 <= val (snd c) <= val parent
  /\ Rabs (val (fst c) + val (snd c) - val parent) <= u * val parent.
Proof.
  intros z p Fz Fp Hz Hp. pose proof huge_pos as G. assert (B : 0 <= val p * val z <= val p) by (split; nra).
  destruct (fmul_ok p z Fp Fz) as (Vm & Fm & _). { apply no_overflow. rewrite Rabs_pos_eq; lra. }
  assert (C : 0 <= val (fmul p z) <= val p).
  { rewrite Vm. split; [rewrite <- nearest_0; apply nearest_le; lra | apply nearest_le_fmt; [apply val_fmt | lra]]. }
  destruct (C146_split p (fmul p z) Fp Fm) as (F1 & F2 & E & Q & _). { rewrite !Rabs_pos_eq; lra. }
  unfold f_energies. cbv zeta in *. split; [exact F1|]. split; [exact F2|]. rewrite E in *. split; [exact C|].
  destruct (fsub_ok p (fmul p z) Fp Fm) as (V & _). { apply no_overflow. rewrite Rabs_pos_eq; lra. } cbn [f_children snd] in *. split.
  - rewrite V. split; [rewrite <- nearest_0; apply nearest_le; lra | apply nearest_le_fmt; [apply val_fmt | lra]].
  - eapply Rle_trans; [exact Q|]. apply Rmult_le_compat_l; [left; apply u_pos|]. rewrite Rabs_pos_eq; lra. Qed.
Print Assumptions C146_split.
Print Assumptions C146_energy.

Example C146_case : Rabs (val (lit 10 0)) + Rabs (val (lit 3 0)) <= huge /\ f_children (lit 10 0) (lit 3 0) = (lit 3 0, lit 7 0)
  /\ f_energies (lit 1 (-2)) (lit 10 0) = (lit 5 (-1), lit 15 (-1)).
Proof. destruct (lit_int 10 ltac:(lia)) as (V & _). destruct (lit_int 3 ltac:(lia)) as (W & _). rewrite V, W, !Rabs_pos_eq by lra.
  split; [|unfold f_energies, f_children; split; apply f_equal2; apply B2SF_inj; vm_compute; reflexivity]. unfold huge.
  assert (2 ^ 4 <= 2 ^ 1023) by (apply Rle_pow; [lra | lia]). lra. Qed.
