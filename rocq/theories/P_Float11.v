(** The gradient of the thrust objective in IEEE doubles (C176, continued). *)
From Coq Require Import ZArith Reals List Bool Lia Lra.
From Flocq Require Import Core BinarySingleNaN.
From Verif Require Import Prelude SpecReal SpecShapes RealBase Kinem Shapes ShapesProofs SpecIEEE Floats FloatBase FloatOps Floats2 P_Float P_Float4 P_Float6 Floats5 P_Float10.
Import ListNotations.
Open Scope R_scope.

(** A sum of n terms, each known to [c0] units of its particle's momentum and at most 3 times it. *)
Definition gsum (c0 : R) (d : f64) (o W : R) (j : nat) : Prop := fin d /\ near (c0 + 4 * INR j) W (val d) o /\ Rabs o <= 3 * W /\ 0 <= W /\ W <= INR j * 2 ^ 240.

Lemma gsum_step : forall c0 d o W j p t t', 0 <= c0 <= 5100 -> gsum c0 d o W j -> moderate p -> fin t -> near c0 (nrm p) (val t) t' -> Rabs t' <= 3 * nrm p -> INR j <= 2 ^ 38 ->
  gsum c0 (fadd d t) (o + t') (W + nrm p) (S j).
Proof.
  intros c0 d o W j p t t' C (F & H & NN & W0 & UW) Mp Ft Nt Bt J. pose proof (pow2_pos 240) as P. pose proof (pos_INR j). pose proof (ipow2_pos 240) as P'.
  pose proof (mod_scale p Mp) as (SL & _). destruct Mp as (_ & L & U).
  assert (UP : W + nrm p <= INR (S j) * 2 ^ 240) by (rewrite S_INR; lra).
  assert (SC : scale (W + nrm p)).
  { split; [lra|]. eapply Rle_trans; [exact UP|]. rewrite S_INR. assert (E1 : 1 <= 2 ^ 38) by (apply pow_R1_Rle; lra).
    apply Rle_trans with (2 ^ 39 * 2 ^ 240); [apply Rmult_le_compat_r; [lra | change (2 ^ 39) with (2 * 2 ^ 38); lra]|].
    rewrite <- pow_add. apply Rle_pow; [lra | lia]. }
  pose proof (near_acc _ _ _ _ _ _ _ _ H Nt ltac:(lra) ltac:(lra)) as NA.
  assert (AX : Rabs (o + t') <= 3 * (W + nrm p)) by (eapply Rle_trans; [apply Rabs_triang|]; lra).
  assert (CU : (c0 + 4 * INR j) * u <= / 1000).
  { assert (P39 : 2 ^ 39 = 2 * 2 ^ 38) by (cbn; lra). pose proof (ksum2 1000 (INR j) ltac:(lra) ltac:(lra)) as Q. pose proof u_tiny as [U0 U1].
    eapply Rle_trans; [|exact Q]. apply Rmult_le_compat_r; lra. }
  destruct (r_add _ _ _ _ _ _ NA F Ft SC AX ltac:(lra) CU ltac:(lra)) as (F' & N').
  split; [exact F'|]. split; [|split; [exact AX | split; [lra | exact UP]]]. rewrite S_INR. eapply near_weak; [| |split; [|apply Rle_refl]|exact N']; lra.
Qed.

Lemma one_val : val fone = 1 /\ fin fone.
Proof. destruct (lit_ok 1 0 ltac:(lia) ltac:(lia)) as (V & F). split; [unfold fone; rewrite V; cbn; lra | exact F]. Qed.

(** Multiplying by a sign is exact. *)
Lemma sign_times : forall d g s, fin d -> fin g -> s = (if Rlt_dec (val d) 0 then -1 else 1) -> val d <> 0 ->
  fin (fmul (copysign fone d) g) /\ val (fmul (copysign fone d) g) = s * val g.
Proof.
  intros d g s Fd Fg -> N. destruct one_val as (V1 & F1). destruct (copysign_val fone d ltac:(lra) F1) as (V & F). rewrite V1 in V.
  assert (S : val (copysign fone d) = if Rlt_dec (val d) 0 then -1 else 1).
  { rewrite V. destruct (Rlt_dec (val d) 0) as [L|L]; [rewrite (sign_neg d Fd L); lra | rewrite (sign_pos d Fd ltac:(lra)); reflexivity]. }
  set (sg := if Rlt_dec (val d) 0 then -1 else 1) in *. assert (SG : sg = 1 \/ sg = -1) by (unfold sg; destruct (Rlt_dec (val d) 0); auto).
  assert (FM : fmt (sg * val g)). { destruct SG as [E|E]; rewrite E; [rewrite Rmult_1_l; apply val_fmt|]. replace (-1 * val g) with (val (fneg g)) by (rewrite fneg_ok; ring). apply val_fmt. }
  assert (AB : Rabs (sg * val g) = Rabs (val g)). { destruct SG as [E|E]; rewrite E; [f_equal; ring|]. replace (-1 * val g) with (- val g) by ring. apply Rabs_Ropp. }
  destruct (fmul_ok (copysign fone d) g F Fg) as (Vm & Fm & _).
  - rewrite S, nearest_id by exact FM. rewrite AB. apply val_lt.
  - split; [exact Fm|]. rewrite Vm, S. apply nearest_id. exact FM.
Qed.

Section Grad.
  Context (k : R) (K : 0 <= k <= 1000) (st ct sp cp : f64) (a i : R).
  Context (Hst : fin st) (Nst : near k 1 (val st) (sin i)) (Hct : fin ct) (Nct : near k 1 (val ct) (cos i))
          (Hsp : fin sp) (Nsp : near k 1 (val sp) (sin a)) (Hcp : fin cp) (Ncp : near k 1 (val cp) (cos a)).

  (** one component of the momentum times two trigonometric values *)
  Lemma comp1 : forall x n N m, fin n -> near k 1 (val n) N -> Rabs N <= 1 -> scale m -> fin x -> Rabs (val x) <= m ->
    fin (fmul x n) /\ near (k + 103 / 100) m (val (fmul x n)) (val x * N) /\ Rabs (val x * N) <= m.
  Proof.
    intros x n N m Fn Nn BN S Fx Bx. destruct (comp_ok k K k n x N (val x) m ltac:(lra) Fn Nn BN S Fx eq_refl Bx) as (F & H & B).
    rewrite fmul_comm, (Rmult_comm (val x)). auto.
  Qed.
  Lemma comp2 : forall x n N q Q m, fin n -> near k 1 (val n) N -> Rabs N <= 1 -> fin q -> near k 1 (val q) Q -> Rabs Q <= 1 -> scale m -> fin x -> Rabs (val x) <= m ->
    fin (fmul (fmul x n) q) /\ near (2 * k + 206 / 100) m (val (fmul (fmul x n) q)) (val x * N * Q) /\ Rabs (val x * N * Q) <= m.
  Proof.
    intros x n N q Q m Fn Nn BN Fq Nq BQ S Fx Bx. destruct (comp1 x n N m Fn Nn BN S Fx Bx) as (F1 & H1 & B1).
    assert (M0 : 0 <= m) by (eapply Rle_trans; [apply Rabs_pos | exact Bx]).
    assert (B1' : Rabs (val x * N) <= 1 * m) by lra. assert (BQ' : Rabs Q <= 1 * 1) by lra.
    pose proof (near_mult (k + 103 / 100) k m 1 _ _ _ _ 1 1 ltac:(lra) ltac:(lra) (kk k K (k + 103 / 100) k ltac:(lra) ltac:(lra)) M0 ltac:(lra) ltac:(lra) ltac:(lra) B1' BQ' H1 Nq) as P.
    rewrite (Rmult_1_r m) in P.
    assert (B : Rabs (val x * N * Q) <= 1 * m). { rewrite Rabs_mult, Rmult_comm. apply Rmult_le_compat; try apply Rabs_pos; assumption. }
    destruct (r_mul _ m 1 _ _ _ P F1 Fq S B ltac:(lra) ltac:(apply (ku k K); lra) ltac:(lra)) as (F & R). split; [exact F|]. split; [|lra].
    eapply near_weak; [| |split; [exact M0|apply Rle_refl]|exact R]; lra.
  Qed.

  Definition f_gphi (p : rec3) : f64 := fsub (fmul (fmul (ry p) st) cp) (fmul (fmul (rx p) st) sp).
  Definition f_gtheta (p : rec3) : f64 := fsub (fadd (fmul (fmul (rx p) ct) cp) (fmul (fmul (ry p) ct) sp)) (fmul (rz p) st).
  Definition gphi (p : mom) : R := py p * sin i * cos a - px p * sin i * sin a.
  Definition gtheta (p : mom) : R := px p * cos i * cos a + py p * cos i * sin a - pz p * sin i.

  Lemma gphi_ok : forall p, moderate p -> fin (f_gphi p) /\ near (5 * k + 12) (nrm p) (val (f_gphi p)) (gphi (mom_of p)) /\ Rabs (gphi (mom_of p)) <= 3 * nrm p.
  Proof.
    intros p Mp. pose proof (mod_scale p Mp) as S. destruct (mod_pos p Mp) as (N0 & _). destruct (comp_le (mom_of p)) as (B1 & B2 & B3). cbn [mom_of px py pz] in B1, B2, B3.
    destruct Mp as ((Fx & Fy & Fz) & _). set (m := nrm p) in *.
    destruct (comp2 (ry p) st (sin i) cp (cos a) m Hst Nst (sin_abs i) Hcp Ncp (cos_abs a) S Fy B2) as (G1 & C1 & D1).
    destruct (comp2 (rx p) st (sin i) sp (sin a) m Hst Nst (sin_abs i) Hsp Nsp (sin_abs a) S Fx B1) as (G2 & C2 & D2).
    pose proof (near_sub _ _ _ _ _ _ _ C1 C2) as C12.
    assert (B12 : Rabs (val (ry p) * sin i * cos a - val (rx p) * sin i * sin a) <= 2 * m) by (unfold Rminus; eapply Rle_trans; [apply Rabs_triang|]; rewrite Rabs_Ropp; lra).
    destruct (r_sub _ m 2 _ _ _ C12 G1 G2 S B12 ltac:(lra) ltac:(apply (ku k K); lra) ltac:(lra)) as (G & C). split; [exact G|].
    change (gphi (mom_of p)) with (val (ry p) * sin i * cos a - val (rx p) * sin i * sin a). split; [|lra].
    eapply near_weak; [| |split; [|apply Rle_refl]|exact C]; lra.
  Qed.
  Lemma gtheta_ok : forall p, moderate p -> fin (f_gtheta p) /\ near (5 * k + 12) (nrm p) (val (f_gtheta p)) (gtheta (mom_of p)) /\ Rabs (gtheta (mom_of p)) <= 3 * nrm p.
  Proof.
    intros p Mp. pose proof (mod_scale p Mp) as S. destruct (mod_pos p Mp) as (N0 & _). destruct (comp_le (mom_of p)) as (B1 & B2 & B3). cbn [mom_of px py pz] in B1, B2, B3.
    destruct Mp as ((Fx & Fy & Fz) & _). set (m := nrm p) in *.
    destruct (comp2 (rx p) ct (cos i) cp (cos a) m Hct Nct (cos_abs i) Hcp Ncp (cos_abs a) S Fx B1) as (G1 & C1 & D1).
    destruct (comp2 (ry p) ct (cos i) sp (sin a) m Hct Nct (cos_abs i) Hsp Nsp (sin_abs a) S Fy B2) as (G2 & C2 & D2).
    destruct (comp1 (rz p) st (sin i) m Hst Nst (sin_abs i) S Fz B3) as (G3 & C3 & D3).
    pose proof (near_add _ _ _ _ _ _ _ C1 C2) as C12.
    assert (B12 : Rabs (val (rx p) * cos i * cos a + val (ry p) * cos i * sin a) <= 2 * m) by (eapply Rle_trans; [apply Rabs_triang|]; lra).
    destruct (r_add _ m 2 _ _ _ C12 G1 G2 S B12 ltac:(lra) ltac:(apply (ku k K); lra) ltac:(lra)) as (G12 & C12').
    pose proof (near_sub _ _ _ _ _ _ _ C12' C3) as C123.
    assert (B123 : Rabs (val (rx p) * cos i * cos a + val (ry p) * cos i * sin a - val (rz p) * sin i) <= 3 * m) by (unfold Rminus; eapply Rle_trans; [apply Rabs_triang|]; rewrite Rabs_Ropp; lra).
    destruct (r_sub _ m 3 _ _ _ C123 G12 G3 S B123 ltac:(lra) ltac:(apply (ku k K); lra) ltac:(lra)) as (G & C). split; [exact G|].
    change (gtheta (mom_of p)) with (val (rx p) * cos i * cos a + val (ry p) * cos i * sin a - val (rz p) * sin i). split; [|lra].
    eapply near_weak; [| |split; [|apply Rle_refl]|exact C]; lra.
  Qed.

  (** far enough from orthogonal to the axis for the sign to be right *)
  Definition clear_of (p : mom) : Prop := (5 * k + 9) * u * norm3 p < Rabs (along p (unit_axis a i)).
  Definition sg (p : mom) : R := if Rlt_dec (along p (unit_axis a i)) 0 then -1 else 1.

  Lemma signed_ok : forall p g G, moderate p -> clear_of (mom_of p) -> fin g -> near (5 * k + 12) (nrm p) (val g) G -> Rabs G <= 3 * nrm p ->
    fin (fmul (copysign fone (f_along st ct sp cp p)) g) /\ near (5 * k + 12) (nrm p) (val (fmul (copysign fone (f_along st ct sp cp p)) g)) (sg (mom_of p) * G) /\
    Rabs (sg (mom_of p) * G) <= 3 * nrm p.
  Proof.
    intros p g G Mp Cp Fg Ng Bg. destruct (along_ok k K st ct sp cp a i Hst Nst Hct Nct Hsp Nsp Hcp Ncp p Mp) as (Fd & Nd).
    set (d := f_along st ct sp cp p) in *. set (D := along (mom_of p) (unit_axis a i)) in *. unfold clear_of in Cp. fold D in Cp. unfold near in Nd. apply Rabs_le_inv in Nd.
    assert (E : sg (mom_of p) = (if Rlt_dec (val d) 0 then -1 else 1) /\ val d <> 0).
    { unfold sg. fold D. fold (nrm p) in Cp. set (e := (5 * k + 9) * u * nrm p) in *. clearbody e. destruct (Rlt_dec D 0) as [L|L].
      - rewrite (Rabs_left D L) in Cp. destruct (Rlt_dec (val d) 0) as [L'|L']; [split; [reflexivity | lra] | exfalso; lra].
      - rewrite (Rabs_pos_eq D) in Cp by lra. destruct (Rlt_dec (val d) 0) as [L'|L']; [exfalso; lra | split; [reflexivity | lra]]. }
    destruct E as (E & N0). destruct (sign_times d g _ Fd Fg E N0) as (F & V). rewrite V.
    assert (AB : forall z, Rabs (sg (mom_of p) * z) = Rabs z).
    { intros z. unfold sg. destruct (Rlt_dec (along (mom_of p) (unit_axis a i)) 0); [replace (-1 * z) with (- z) by ring; apply Rabs_Ropp | f_equal; ring]. }
    split; [exact F|]. split; [|rewrite AB; exact Bg]. unfold near in *. replace (sg (mom_of p) * val g - sg (mom_of p) * G) with (sg (mom_of p) * (val g - G)) by ring. rewrite AB. exact Ng.
  Qed.

  Lemma gfold_ok : forall l s op ot N j, Forall moderate l -> Forall (fun p => clear_of (mom_of p)) l ->
    gsum (5 * k + 12) (ft_phi s) op N j -> gsum (5 * k + 12) (ft_theta s) ot N j -> INR (j + length l) <= 2 ^ 38 ->
    exists s', ofold (f_thrust_step st ct sp cp) l s = Some s' /\
      gsum (5 * k + 12) (ft_phi s') (op + rsum (map (fun p => sg p * gphi p) (map mom_of l))) (N + total_norm (map mom_of l)) (j + length l) /\
      gsum (5 * k + 12) (ft_theta s') (ot + rsum (map (fun p => sg p * gtheta p) (map mom_of l))) (N + total_norm (map mom_of l)) (j + length l).
  Proof.
    induction l as [|p l IH]; intros s op ot N j Ml Cl A B J.
    - exists s. unfold total_norm. cbn [ofold map rsum length]. rewrite Nat.add_0_r, !Rplus_0_r. auto.
    - inversion Ml as [|? ? Mp Ml']; subst. inversion Cl as [|? ? Cp Cl']; subst. destruct (norm_ok p Mp) as (r & E & Fr & Nr).
      destruct (gphi_ok p Mp) as (F1 & N1 & B1). destruct (gtheta_ok p Mp) as (F2 & N2 & B2).
      destruct (signed_ok p _ _ Mp Cp F1 N1 B1) as (F1' & N1' & B1'). destruct (signed_ok p _ _ Mp Cp F2 N2 B2) as (F2' & N2' & B2').
      assert (J1 : INR j <= 2 ^ 38) by (eapply Rle_trans; [apply le_INR | exact J]; lia).
      assert (C0 : 0 <= 5 * k + 12 <= 5100) by lra.
      pose proof (gsum_step _ _ _ _ _ p _ _ C0 A Mp F1' N1' B1' J1) as A1.
      pose proof (gsum_step _ _ _ _ _ p _ _ C0 B Mp F2' N2' B2' J1) as A2.
      cbn [length] in J. rewrite Nat.add_succ_r, <- Nat.add_succ_l in J.
      cbn [ofold]. unfold f_thrust_step at 1. rewrite E. cbn [obind].
      match goal with |- context [ofold _ l ?s1] => destruct (IH s1 _ _ _ _ Ml' Cl' A1 A2 J) as (s' & E2 & A3 & B3) end.
      exists s'. split; [exact E2|]. unfold total_norm in *. cbn [map rsum length]. rewrite Nat.add_succ_r, <- Nat.add_succ_l, <- !Rplus_assoc. auto.
  Qed.
End Grad.

(** When no particle is within rounding of being orthogonal to the axis, the gradient handed to the optimiser is the gradient of
    minus the textbook thrust up to (6 k + 11 n + 45) u. *)
Theorem C176_gradient : forall fsin fcos k az inc l, 0 <= k <= 1000 ->
  trig_ok k fsin sin inc -> trig_ok k fcos cos inc -> trig_ok k fsin sin az -> trig_ok k fcos cos az ->
  l <> [] -> (Z.of_nat (length l) <= 524288)%Z -> Forall moderate l ->
  (forall p, In p (map mom_of l) -> (5 * k + 9) * u * norm3 p < Rabs (along p (unit_axis (val az) (val inc)))) ->
  exists v gp gt dphi dtheta, f_thrust_with_grad fsin fcos az inc l = Some (v, (gp, gt)) /\ fin gp /\ fin gt /\
    derivable_pt_lim (fun t => - thrust_along (map mom_of l) (unit_axis t (val inc))) (val az) dphi /\
    derivable_pt_lim (fun t => - thrust_along (map mom_of l) (unit_axis (val az) t)) (val inc) dtheta /\
    Rabs (val gp - dphi) <= (6 * k + 11 * INR (length l) + 45) * u /\ Rabs (val gt - dtheta) <= (6 * k + 11 * INR (length l) + 45) * u.
Proof.
  intros fsin fcos k az inc l K TR1 TR2 TR3 TR4 NE LN Ml CL.
  destruct TR1 as (F1 & T1), TR2 as (F2 & T2), TR3 as (F3 & T3), TR4 as (F4 & T4).
  assert (ZM : forall q, In q (map mom_of l) -> p_sq q <> 0).
  { intros q Hq. apply in_map_iff in Hq as (p & <- & Hp). rewrite Forall_forall in Ml. destruct (mod_pos p (Ml p Hp)). auto. }
  set (n := length l) in *. assert (n1 : (1 <= n)%nat) by (unfold n; destruct l; [contradiction | cbn; lia]).
  assert (RN : 1 <= INR n <= 524288). { split; [apply (le_INR 1); exact n1|]. rewrite INR_IZR_INZ. apply IZR_le. exact LN. }
  assert (N1 : forall f g x, Rabs (val (f x) - g (val x)) <= k * u -> near k 1 (val (f x)) (g (val x))) by (intros; unfold near; lra).
  assert (P38 : 524288 <= 2 ^ 38). { replace 524288 with (2 ^ 19) by (cbn; lra). apply Rle_pow; [lra | lia]. }
  assert (P39 : 2 ^ 38 <= 2 ^ 39) by (apply Rle_pow; [lra | lia]).
  assert (G0 : gsum (5 * k + 12) fzero 0 0 0). { split; [reflexivity|]. cbn [INR]. unfold near. change (val fzero) with 0. rewrite Rminus_0_r, Rabs_R0. repeat split; lra. }
  assert (A0 : dsum k fzero 0 0 0). { split; [reflexivity|]. cbn [INR]. unfold near. change (val fzero) with 0. rewrite Rminus_0_r, Rabs_R0. repeat split; lra. }
  assert (B0 : nsum fzero 0 0). { split; [reflexivity|]. cbn [INR]. unfold near. change (val fzero) with 0. rewrite Rminus_0_r, Rabs_R0. lra. }
  assert (CF : Forall (fun p => clear_of k (val az) (val inc) (mom_of p)) l).
  { apply Forall_forall. intros p Hp. apply CL. apply in_map. exact Hp. }
  destruct (fold_ok k K (fsin inc) (fcos inc) (fsin az) (fcos az) (val az) (val inc) F1 (N1 _ _ _ T1) F2 (N1 _ _ _ T2) F3 (N1 _ _ _ T3) F4 (N1 _ _ _ T4) l
              (FTAcc fzero fzero fzero fzero) 0 0 0%nat Ml A0 B0) as (s & E & _ & B); [cbn [Nat.add]; fold n; lra|].
  destruct (gfold_ok k K (fsin inc) (fcos inc) (fsin az) (fcos az) (val az) (val inc) F1 (N1 _ _ _ T1) F2 (N1 _ _ _ T2) F3 (N1 _ _ _ T3) F4 (N1 _ _ _ T4) l
              (FTAcc fzero fzero fzero fzero) 0 0 0 0%nat Ml CF G0 G0) as (s' & E' & GP & GT); [cbn [Nat.add]; fold n; lra|].
  rewrite E in E'. injection E' as <-.
  cbn [Nat.add] in B, GP, GT. fold n in B, GP, GT. rewrite !Rplus_0_l in B. rewrite !Rplus_0_l in GP. rewrite !Rplus_0_l in GT.
  set (L := map mom_of l) in *. assert (LE : L <> []) by (unfold L; destruct l; [contradiction | discriminate]).
  pose proof (total_norm_pos L LE ZM) as TP. set (N := total_norm L) in *.
  destruct B as (Fs & Ns & NB).
  pose proof u_tiny as [U0 U1].
  assert (CAP : (10 * k + 200 + 15 * INR n) * u <= / 10000).
  { apply Rle_trans with (10000000 * u); [apply Rmult_le_compat_r; lra | lra]. }
  assert (CK : forall c, 0 <= c <= 10 * k + 200 + 15 * INR n -> c * u <= / 10000).
  { intros c Hc. eapply Rle_trans; [|exact CAP]. apply Rmult_le_compat_r; lra. }
  assert (DN : 0 < val (ft_norm s)).
  { unfold near in Ns. apply Rabs_le_inv in Ns. assert ((7 + 2 * INR n) * u * N <= / 10000 * N) by (apply Rmult_le_compat_r; [lra | apply CK; lra]). lra. }
  assert (Q : forall d o, gsum (5 * k + 12) d o N n -> fin (fneg (fdiv d (ft_norm s))) /\ Rabs (val (fneg (fdiv d (ft_norm s))) - - (o / N)) <= (6 * k + 11 * INR n + 45) * u).
  { intros d o (Fd & Nd & Bd & _).
    assert (AO : Rabs o <= 3 * (N * 1)) by lra.
    assert (Nd' : near (5 * k + 12 + 4 * INR n) (N * 1) (val d) o) by (rewrite Rmult_1_r; exact Nd).
    pose proof (near_div (5 * k + 12 + 4 * INR n) (7 + 2 * INR n) N 1 (val d) o (val (ft_norm s)) 3 ltac:(lra) ltac:(lra) ltac:(apply CK; lra) TP ltac:(lra) ltac:(lra) AO Nd' Ns) as NQ.
    assert (AC : Rabs (o / N) <= 3 * 1). { unfold Rdiv. rewrite Rabs_mult, Rabs_inv, (Rabs_pos_eq N) by lra. apply Rmult_le_reg_r with N; [exact TP|]. rewrite Rmult_assoc, Rinv_l by lra. lra. }
    assert (CQ : (5 * k + 12 + 4 * INR n + 3 * (7 + 2 * INR n)) * (1001 / 1000) * u <= / 1000).
    { eapply Rle_trans; [apply (CK ((5 * k + 12 + 4 * INR n + 3 * (7 + 2 * INR n)) * (1001 / 1000))); lra | lra]. }
    destruct (r_div _ _ _ _ _ _ NQ Fd Fs scale_1 AC ltac:(lra) ltac:(lra) CQ ltac:(lra)) as (Fc & Nc).
    split; [apply fneg_fin; exact Fc|]. rewrite fneg_ok. replace (- val (fdiv d (ft_norm s)) - - (o / N)) with (- (val (fdiv d (ft_norm s)) - o / N)) by ring. rewrite Rabs_Ropp.
    apply near_weak with (d := 6 * k + 11 * INR n + 45) (n := 1) in Nc; [|lra|lra|lra]. unfold near in Nc. rewrite Rmult_1_r in Nc. exact Nc. }
  destruct (Q _ _ GP) as (P1 & P2). destruct (Q _ _ GT) as (Q1 & Q2).
  unfold f_thrust_with_grad. rewrite E. cbn [obind]. rewrite fdiv_py_ok by (try assumption; lra). cbn [obind].
  do 5 eexists. split; [reflexivity|]. split; [exact P1|]. split; [exact Q1|].
  assert (NZ : forall p, In p L -> along p (unit_axis (val az) (val inc)) <> 0).
  { intros p Hp Z. specialize (CL p Hp). rewrite Z, Rabs_R0 in CL. assert (0 <= (5 * k + 9) * u * norm3 p) by (apply Rmult_le_pos; [apply Rmult_le_pos; lra | apply sqrt_pos]). lra. }
  assert (NN : N <> 0) by lra.
  pose proof (thrust_deriv_phi (val az) (val inc) L NN NZ) as D1. pose proof (thrust_deriv_theta (val az) (val inc) L NN NZ) as D2.
  apply derivable_pt_lim_opp in D1. apply derivable_pt_lim_opp in D2. fold N in D1, D2.
  assert (SE : forall p, RealBase.copysign 1 (along p (unit_axis (val az) (val inc))) = sg (val az) (val inc) p).
  { intros p. unfold RealBase.copysign, sg. rewrite Rabs_R1. reflexivity. }
  assert (S1 : rsum (map (fun p => snd (fst (thrust_terms (val az) (val inc) p))) L) = rsum (map (fun p => sg (val az) (val inc) p * gphi (val az) (val inc) p) L)).
  { f_equal. apply map_ext. intros p. unfold thrust_terms. cbn [fst snd]. rewrite SE. reflexivity. }
  assert (S2 : rsum (map (fun p => snd (thrust_terms (val az) (val inc) p)) L) = rsum (map (fun p => sg (val az) (val inc) p * gtheta (val az) (val inc) p) L)).
  { f_equal. apply map_ext. intros p. unfold thrust_terms. cbn [fst snd]. rewrite SE. reflexivity. }
  rewrite S1 in D1. rewrite S2 in D2.
  split; [exact D1|]. split; [exact D2|]. split; [exact P2 | exact Q2].
Qed.

(** The hypotheses are met, e.g. by the particle (0, 0, 49) and the z axis. *)
Example C176_gradient_case : exists v gp gt, f_thrust_with_grad exact_sin exact_cos fzero fzero [(fzero, fzero, lit 49 0)] = Some (v, (gp, gt)) /\ fin gp /\ fin gt.
Proof.
  destruct C176_case as (M & T1 & T2 & _). destruct (lit_ok 49 0 ltac:(lia) ltac:(lia)) as (V & F). assert (V49 : val (lit 49 0) = 49) by (rewrite V; cbn; lra).
  destruct (C176_gradient exact_sin exact_cos 0 fzero fzero [(fzero, fzero, lit 49 0)] ltac:(lra) T1 T2 T1 T2 ltac:(discriminate) ltac:(cbn; lia) (Forall_cons _ M (Forall_nil _))) as (v & gp & gt & d1 & d2 & E & F1 & F2 & _).
  - intros p [<-|[]]. assert (N : norm3 (mom_of (fzero, fzero, lit 49 0)) = 49).
    { unfold norm3, p_sq, mom_of. cbn [fst snd px py pz]. rewrite V49. change (val fzero) with 0. replace (0 * 0 + 0 * 0 + 49 * 49) with (49 * 49) by ring. apply sqrt_square. lra. }
    rewrite N. unfold along, unit_axis, mom_of. cbn [fst snd px py pz vx vy vz]. rewrite V49. change (val fzero) with 0. rewrite sin_0, cos_0.
    replace (0 * (0 * 1) + 0 * (0 * 0) + 49 * 1) with 49 by ring. rewrite Rabs_pos_eq by lra. pose proof u_tiny. lra.
  - eauto 6.
Qed.

Print Assumptions C176_gradient.
