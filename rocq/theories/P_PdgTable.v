(** C171, C172: properties read from the particle table. *)
From Coq Require Import ZArith Reals List Bool Lia Lra.
From Flocq Require Import Core BinarySingleNaN.
From Verif Require Import Prelude SpecIEEE Floats FloatBase FloatOps PdgTable.
Import ListNotations.
Open Scope R_scope.

(** The table has the record [r] for the code [z] (codes are not repeated). *)
Definition in_table (table : list (Z * prow)) (z : Z) (r : prow) : Prop := NoDup (map fst table) /\ In (z, r) table.

Lemma row_found table z r : in_table table z r -> row_of table z = Ok r.
Proof.
  intros (ND & I). unfold row_of. assert (E : find (fun p => Z.eqb (fst p) z) table = Some (z, r)); [|rewrite E; reflexivity].
  induction table as [|(z' & r') t IH]; [destruct I|]. cbn [find fst]. inversion ND as [|? ? N1 N2]; subst. destruct I as [E|I].
  - injection E as -> ->. rewrite Z.eqb_refl. reflexivity.
  - destruct (Z.eqb_spec z' z) as [->|D]; [exfalso; apply N1; change z with (fst (z, r)); apply in_map, I | auto].
Qed.
Lemma row_missing table z : ~ In z (map fst table) -> row_of table z = Err KeyError.
Proof.
  intros H. unfold row_of. destruct (find (fun p => Z.eqb (fst p) z) table) as [(z' & r)|] eqn:E; [|reflexivity]. apply find_some in E as (I & Q). cbn in Q. apply Z.eqb_eq in Q. subst.
  exfalso. apply H. change z with (fst (z, r)). apply in_map, I.
Qed.
Lemma rows_of table codes rows : Forall2 (in_table table) codes rows -> mapM (row_of table) codes = Ok rows.
Proof. induction 1 as [|z r codes rows H _ IH]; [reflexivity|]. cbn [mapM]. rewrite (row_found _ _ _ H). cbn [bind]. rewrite IH. reflexivity. Qed.

(** C171: one value per particle, in order, repeated codes included, each from that code's record; a code outside the table makes the
    whole property a KeyError. *)
Theorem C171_columns : forall table codes rows, Forall2 (in_table table) codes rows ->
  pdg_charge table codes = Ok (map r_charge rows) /\ pdg_isospin table codes = Ok (map r_i rows) /\ pdg_g_parity table codes = Ok (map r_g rows) /\
  pdg_space_parity table codes = Ok (map r_p rows) /\ pdg_charge_parity table codes = Ok (map r_c rows) /\
  (exists m, pdg_mass table codes = Ok m /\ length m = length codes) /\ (exists w, pdg_width table codes = Ok w /\ length w = length codes).
Proof.
  intros table codes rows H. unfold pdg_charge, pdg_isospin, pdg_g_parity, pdg_space_parity, pdg_charge_parity, pdg_mass, pdg_width, get_prop. rewrite (rows_of _ _ _ H). cbn [bind].
  assert (L : length rows = length codes) by (clear - H; induction H; cbn; congruence). repeat split; eexists; (split; [reflexivity|]); rewrite !map_length; exact L.
Qed.
Theorem C171_unknown : forall table codes z A (col : prow -> A), In z codes -> ~ In z (map fst table) ->
  get_prop col table codes = Err KeyError /\ pdg_mass table codes = Err KeyError /\ pdg_width table codes = Err KeyError /\
  pdg_mass_bounds table codes = Err KeyError /\ pdg_width_bounds table codes = Err KeyError.
Proof.
  intros table codes z A col I N. assert (E : mapM (row_of table) codes = Err KeyError).
  { induction codes as [|y codes IH]; [destruct I|]. cbn [mapM]. destruct (row_of table y) as [r|e] eqn:Ey.
    - cbn [bind]. destruct I as [->|I]; [rewrite (row_missing _ _ N) in Ey; discriminate|]. rewrite (IH I). reflexivity.
    - unfold row_of in Ey. destruct (find _ table); [discriminate|]. injection Ey as <-. reflexivity. }
  unfold pdg_mass, pdg_width, pdg_mass_bounds, pdg_width_bounds, get_prop_range, get_prop. rewrite E. repeat split.
Qed.

(** * Units: MeV to GeV *)

Lemma milli_val : val mega_to_giga = 4611686018427388 * / 4611686018427387904 /\ fin mega_to_giga.
Proof. destruct (lit_ok 4611686018427388 (-62) ltac:(lia) ltac:(lia)) as (A & B). split; [exact A | exact B]. Qed.
Lemma milli_near : nearest (/ 1000) = val mega_to_giga.
Proof.
  assert (H : forall m, (Z.abs m < 2 ^ 100)%Z -> nearest (IZR m * bpow radix2 (-70)) = val (lit m (-70))).
  { intros m Hm. pose proof (binary_normalize_correct 53 1024 prec_pos prec_emax mode_NE m (-70) false) as C. fold (lit m (-70)) in C.
    cbv zeta in C. repeat match type of C with context [round ?b ?f ?r ?x] => change (round b f r x) with (nearest x) in C end.
    change (F2R (Float radix2 m (-70))) with (IZR m * bpow radix2 (-70)) in C. rewrite Rlt_bool_true in C; [symmetry; exact (proj1 C)|]. apply no_overflow.
    rewrite Rabs_mult, <- abs_IZR, (Rabs_pos_eq (bpow radix2 (-70))) by apply bpow_ge_0. rewrite huge_bpow.
    apply Rle_trans with (bpow radix2 100 * bpow radix2 (-70)); [|rewrite <- bpow_plus; apply bpow_le; lia].
    apply Rmult_le_compat_r; [apply bpow_ge_0|]. rewrite <- (IZR_Zpower radix2) by lia. apply IZR_le. change (radix2 ^ 100)%Z with (2 ^ 100)%Z. lia. }
  assert (S : bpow radix2 (-70) = / 1180591620717411303424) by reflexivity.
  apply Rle_antisym.
  - apply Rle_trans with (nearest (IZR 1180591620717411304 * bpow radix2 (-70))); [apply nearest_le; rewrite S; lra|].
    rewrite H by lia. apply Req_le. f_equal. apply B2SF_inj. vm_compute. reflexivity.
  - apply Rle_trans with (nearest (IZR 1180591620717411303 * bpow radix2 (-70))); [|apply nearest_le; rewrite S; lra].
    rewrite H by lia. apply Req_le. f_equal. apply B2SF_inj. vm_compute. reflexivity.
Qed.

Lemma milli_bounds : 0 < val mega_to_giga < / 2 /\ Rabs (val mega_to_giga - / 1000) <= u * / 1000.
Proof.
  destruct milli_val as (-> & _). split; [lra|]. apply Rabs_le. assert (U : u = / 9007199254740992). { unfold u. f_equal. rewrite pow_IZR. reflexivity. } rewrite U. lra.
Qed.
Lemma milli_mul x : fin x -> fin (fmul x mega_to_giga) /\ val (fmul x mega_to_giga) = nearest (val x * val mega_to_giga).
Proof.
  intros Hx. destruct milli_val as (_ & F). destruct milli_bounds as (B & _). destruct (fmul_ok x mega_to_giga Hx F) as (V & G & _); [|split; assumption].
  eapply Rle_lt_trans; [|apply (val_lt x)]. rewrite <- nearest_abs, <- (nearest_id (Rabs (val x))).
  - apply nearest_le. rewrite Rabs_mult, (Rabs_pos_eq (val mega_to_giga)) by lra. pose proof (Rabs_pos (val x)). nra.
  - rewrite <- fabs_ok. apply val_fmt.
Qed.

(** C172: the mass is the table's value in GeV up to three units of rounding; finite stays finite; a larger table value never gives a
    smaller mass; missing values (NaN) stay missing. *)
Lemma units_ok : forall x, fin x ->
  fin (fmul x mega_to_giga) /\ Rabs (val (fmul x mega_to_giga) - val x / 1000) <= 3 * u * Rabs (val x / 1000) + u * min_normal /\
  (forall y, fin y -> val x <= val y -> val (fmul x mega_to_giga) <= val (fmul y mega_to_giga)).
Proof.
  intros x Hx. destruct (milli_mul x Hx) as (F & V). split; [exact F|]. destruct milli_bounds as (B & D). split.
  - rewrite V. pose proof (nearest_err_any (val x * val mega_to_giga)) as N. set (m := val mega_to_giga) in *. pose proof u_small as U1. pose proof u_pos as U0.
    assert (E1 : Rabs (val x * m - val x / 1000) <= u * Rabs (val x / 1000)).
    { replace (val x * m - val x / 1000) with (val x * (m - / 1000)) by (unfold Rdiv; ring). unfold Rdiv. rewrite !Rabs_mult, (Rabs_pos_eq (/ 1000)) by lra.
      replace (u * (Rabs (val x) * / 1000)) with (Rabs (val x) * (u * / 1000)) by ring. apply Rmult_le_compat_l; [apply Rabs_pos | exact D]. }
    assert (E2 : Rabs (val x * m) <= (1 + u) * Rabs (val x / 1000)).
    { replace (val x * m) with ((val x * m - val x / 1000) + val x / 1000) by ring. eapply Rle_trans; [apply Rabs_triang|]. lra. }
    assert (E3 : u * Rabs (val x * m) <= u * ((1 + u) * Rabs (val x / 1000))) by (apply Rmult_le_compat_l; lra).
    assert (E4 : u * ((1 + u) * Rabs (val x / 1000)) <= 2 * u * Rabs (val x / 1000)).
    { replace (u * ((1 + u) * Rabs (val x / 1000))) with ((u * Rabs (val x / 1000)) * (1 + u)) by ring. replace (2 * u * Rabs (val x / 1000)) with ((u * Rabs (val x / 1000)) * 2) by ring.
      apply Rmult_le_compat_l; [apply Rmult_le_pos; [lra | apply Rabs_pos] | lra]. }
    replace (nearest (val x * m) - val x / 1000) with ((nearest (val x * m) - val x * m) + (val x * m - val x / 1000)) by ring.
    eapply Rle_trans; [apply Rabs_triang|]. lra.
  - intros y Hy H. destruct (milli_mul y Hy) as (_ & V'). rewrite V, V'. apply nearest_le, Rmult_le_compat_r; lra.
Qed.
(** A value in GeV read off a value in MeV: it is within 3 roundings of a thousandth of it, and a missing value stays missing. *)
Definition in_GeV (mev gev : f64) : Prop :=
  (fin mev -> fin gev /\ Rabs (val gev - val mev / 1000) <= 3 * u * Rabs (val mev / 1000) + u * min_normal) /\ (mev = B754_nan -> gev = B754_nan).
Lemma in_GeV_mul : forall x, in_GeV x (fmul x mega_to_giga).
Proof. intros x. split; [intros H; destruct (units_ok x H) as (A & B & _); split; assumption | intros ->; reflexivity]. Qed.
Lemma Forall2_map_r : forall {A B} (R : A -> B -> Prop) (f : A -> B) l, (forall a, R a (f a)) -> Forall2 R l (map f l).
Proof. induction l; intros H; cbn; constructor; auto. Qed.
Theorem C172_units : forall table codes rows, Forall2 (in_table table) codes rows ->
  exists ms ws, pdg_mass table codes = Ok ms /\ pdg_width table codes = Ok ws /\
  Forall2 in_GeV (map r_mass rows) ms /\ Forall2 in_GeV (map r_width rows) ws.
Proof.
  intros table codes rows H. unfold pdg_mass, pdg_width, get_prop. rewrite (rows_of _ _ _ H). cbn [bind].
  do 2 eexists. split; [reflexivity|]. split; [reflexivity|]. split; apply Forall2_map_r, in_GeV_mul.
Qed.
(** The conversion never swaps two masses. *)
Theorem C172_monotone : forall table a b ra rb, in_table table a ra -> in_table table b rb -> fin (r_mass ra) -> fin (r_mass rb) -> val (r_mass ra) <= val (r_mass rb) ->
  exists ma mb, pdg_mass table [a; b] = Ok [ma; mb] /\ val ma <= val mb.
Proof.
  intros table a b ra rb A B Fa Fb L. unfold pdg_mass, get_prop. rewrite (rows_of table [a; b] [ra; rb]) by (repeat (apply Forall2_cons; [assumption|]); apply Forall2_nil). cbn [bind map].
  do 2 eexists. split; [reflexivity|]. apply (units_ok _ Fa); assumption.
Qed.

(** Bounds: each end is scaled once, and lower ends stay below upper ends. *)
Theorem C172_bounds : forall table codes rows, Forall2 (in_table table) codes rows ->
  exists mb wb, pdg_mass_bounds table codes = Ok mb /\ pdg_width_bounds table codes = Ok wb /\
  mb = map (fun r => (fmul (r_masslower r) mega_to_giga, fmul (r_massupper r) mega_to_giga)) rows /\
  wb = map (fun r => (fmul (r_widthlower r) mega_to_giga, fmul (r_widthupper r) mega_to_giga)) rows /\
  ((forall r, In r rows -> fin (r_masslower r) /\ fin (r_massupper r) /\ val (r_masslower r) <= val (r_massupper r)) ->
   forall b, In b mb -> fin (fst b) /\ fin (snd b) /\ val (fst b) <= val (snd b)).
Proof.
  intros table codes rows H. unfold pdg_mass_bounds, pdg_width_bounds, get_prop_range, get_prop. rewrite (rows_of _ _ _ H). cbn [bind].
  do 2 eexists. split; [reflexivity|]. split; [reflexivity|]. unfold scale_range. rewrite !map_map. cbn [fst snd]. split; [reflexivity|]. split; [reflexivity|].
  intros HB b Hb. apply in_map_iff in Hb as (r & <- & Hr). cbn [fst snd]. destruct (HB r Hr) as (F1 & F2 & L).
  destruct (units_ok _ F1) as (G1 & _ & M). destruct (units_ok _ F2) as (G2 & _ & _). split; [exact G1|]. split; [exact G2|]. apply M; assumption.
Qed.

(** The mass is not always the double nearest to the table's value over 1000: 9 MeV reads as 0.009000000000000001 GeV. *)
Lemma not_nearest : ~ (forall x, fin x -> val (fmul x mega_to_giga) = nearest (val x / 1000)).
Proof.
  intros H. specialize (H (lit 9 0) eq_refl).
  assert (E1 : fmul (lit 9 0) mega_to_giga = lit 5188146770730812 (-59)) by (apply B2SF_inj; vm_compute; reflexivity). rewrite E1 in H.
  rewrite (proj1 (lit_ok 5188146770730812 (-59) ltac:(lia) ltac:(lia))) in H. rewrite (proj1 (lit_int 9 ltac:(lia))) in H.
  assert (F : fmt (val (lit 5188146770730811 (-59)))) by apply val_fmt. rewrite (proj1 (lit_ok 5188146770730811 (-59) ltac:(lia) ltac:(lia))) in F.
  assert (G : nearest (9 / 1000) - 9 / 1000 = 5188146770730812 * bpow radix2 (-59) - 9 / 1000) by (rewrite H; reflexivity).
  destruct (round_N_pt radix2 (FLT_exp (-1074) 53) (fun x => negb (Z.even x)) (9 / 1000)) as (_ & Q). specialize (Q _ F). fold (nearest (9 / 1000)) in Q. rewrite G in Q.
  change (bpow radix2 (-59)) with (/ 576460752303423488) in Q. rewrite (Rabs_pos_eq (5188146770730812 * / 576460752303423488 - 9 / 1000)) in Q by lra.
  rewrite Rabs_left1 in Q; lra.
Qed.

Definition row9 (x : f64) : prow := PRow x x x x x x x x x x x.
Theorem C192_refuted : ~ (forall table codes rows, Forall2 (in_table table) codes rows -> (forall r, In r rows -> fin (r_mass r)) ->
  exists ms, pdg_mass table codes = Ok ms /\ Forall2 (fun r m => val m = nearest (val (r_mass r) / 1000)) rows ms).
Proof.
  intros H. apply not_nearest. intros x Fx. assert (T : Forall2 (in_table [(11%Z, row9 x)]) [11%Z] [row9 x]).
  { apply Forall2_cons; [|apply Forall2_nil]. split; [cbn; repeat constructor; intros [] | left; reflexivity]. }
  destruct (H _ _ _ T) as (ms & E & F); [intros r [<-|[]]; exact Fx|]. unfold pdg_mass, get_prop in E. rewrite (rows_of _ _ _ T) in E. cbn [bind map] in E.
  injection E as <-. inversion F; subst. assumption.
Qed.
Example C171_case : Forall2 (in_table [(11, row9 (lit 9 0)); (22, row9 fzero)]%Z) [22; 11; 22]%Z [row9 fzero; row9 (lit 9 0); row9 fzero] /\
  pdg_mass [(11, row9 (lit 9 0)); (22, row9 fzero)]%Z [5]%Z = Err KeyError.
Proof.
  split; [|reflexivity]. assert (ND : NoDup (map fst [(11, row9 (lit 9 0)); (22, row9 fzero)]%Z)) by (cbn; constructor; [intros [F|[]]; discriminate | constructor; [intros [] | constructor]]).
  repeat (apply Forall2_cons; [split; [exact ND | cbn; auto]|]); apply Forall2_nil.
Qed.

Print Assumptions C171_columns.
Print Assumptions C171_unknown.
Print Assumptions C172_units.
Print Assumptions C172_monotone.
Print Assumptions C172_bounds.
Print Assumptions C192_refuted.
