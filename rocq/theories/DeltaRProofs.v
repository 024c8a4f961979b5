(** Lemmas about distances and the parallel loops. *)
From Verif Require Import Prelude Keys SpecReal RealBase Kinem KinemProofs Par DeltaR.
Open Scope R_scope.

Lemma cell_eqb_eq a b : cell_eqb a b = true <-> a = b.
Proof.
  destruct a as (a1, a2), b as (b1, b2). unfold cell_eqb. cbn. rewrite Bool.andb_true_iff, !Nat.eqb_eq. split; [intros (-> & ->); reflexivity | intros E; injection E; auto].
Qed.

(** ** Schedules *)
Lemma read_out_length {V} n1 n2 (m : mem cell V) : length (read_out n1 n2 m) = n1.
Proof. unfold read_out. rewrite map_length, seq_length. reflexivity. Qed.
Lemma seq_nth_error s n i : nth_error (seq s n) i = if Nat.ltb i n then Some (s + i)%nat else None.
Proof.
  revert s i. induction n as [|n IH]; intros s i; [destruct i; reflexivity|]. destruct i as [|i]; cbn [seq nth_error]; [rewrite Nat.add_0_r; reflexivity|].
  rewrite IH. change (Nat.ltb (S i) (S n)) with (Nat.ltb i n). replace (S s + i)%nat with (s + S i)%nat by lia. reflexivity.
Qed.
Lemma map_seq_eq {A B} (f : nat -> B) (g : A -> B) (l : list A) : (forall i x, nth_error l i = Some x -> f i = g x) -> map f (seq 0 (length l)) = map g l.
Proof.
  intros H. apply nth_error_ext. intros i. rewrite !nth_error_map', seq_nth_error. destruct (Nat.ltb_spec i (length l)) as [L|L].
  - destruct (nth_error l i) as [x|] eqn:E; [|apply nth_error_None in E; lia]. cbn. f_equal. apply H, E.
  - apply nth_error_None in L. rewrite L. reflexivity.
Qed.

Lemma nthm_some l i p : nth_error l i = Some p -> nthm l i = p.
Proof. intros H. unfold nthm. erewrite nth_error_nth; eauto. Qed.

Lemma write_map_solo i (f : nat -> ext) js (m : mem cell ext) c :
  NoDup js ->
  solo (map (fun j => write i j (f j)) js) tt m c = if (Nat.eqb i (fst c) && existsb (Nat.eqb (snd c)) js)%bool then f (snd c) else m c.
Proof.
  revert m. induction js as [|j js IH]; intros m ND; cbn [map solo]; [rewrite Bool.andb_false_r; reflexivity|].
  inversion ND as [|? ? NI ND']; subst. unfold write at 1, put_cell. rewrite IH by exact ND'. cbn [existsb].
  unfold cell_eqb; cbn. destruct (Nat.eqb_spec i (fst c)) as [E|E]; [|reflexivity]. cbn.
  destruct (existsb (Nat.eqb (snd c)) js) eqn:EX; [rewrite Bool.orb_true_r; reflexivity|]. rewrite Bool.orb_false_r, Nat.eqb_sym.
  destruct (Nat.eqb_spec (snd c) j) as [->|]; reflexivity.
Qed.

Theorem delta_R_loop_result rap l r m0 m : runs (delta_R_loop rap l r) m0 m ->
  read_out (length l) (length r) m = delta_R rap l r.
Proof.
  intros H. set (F := fun (i : nat) (c : cell) => fst c = i).
  destruct (fun HD => runs_disjoint F HD (delta_R_loop rap l r) m0 m H) as (A & _); [unfold F; congruence | |].
  { intros i p lc Hp. unfold delta_R_loop in Hp. rewrite nth_error_map', seq_nth_error in Hp. destruct (Nat.ltb i (length l)); [|discriminate]. cbn in Hp. injection Hp as <- <-.
    apply Forall_forall. intros a Ha. apply in_map_iff in Ha as (j & <- & _). apply confined_put; [apply cell_eqb_eq | reflexivity]. }
  unfold read_out, delta_R. apply map_seq_eq. intros i p Hp. apply map_seq_eq. intros j q Hq.
  assert (HL : (i < length l)%nat) by (apply nth_error_Some; congruence). assert (HR : (j < length r)%nat) by (apply nth_error_Some; congruence).
  rewrite (A i (fst (delta_R_body rap l r i)) tt); [| |reflexivity].
  - unfold delta_R_body. cbn [fst]. rewrite write_map_solo by apply seq_NoDup. cbn. rewrite Nat.eqb_refl. cbn.
    assert (EX : existsb (Nat.eqb j) (seq 0 (length r)) = true) by (apply existsb_exists; exists j; split; [apply in_seq; lia | apply Nat.eqb_refl]).
    rewrite EX, (nthm_some _ _ _ Hp), (nthm_some _ _ _ Hq). reflexivity.
  - unfold delta_R_loop. rewrite nth_error_map', seq_nth_error. destruct (Nat.ltb_spec i (length l)); [reflexivity|lia].
Qed.

(** ** The entries *)
Lemma atan2_0_nonneg x : 0 <= x -> atan2 0 x = 0.
Proof.
  intros H. unfold atan2. destruct (Rlt_dec 0 x); [unfold Rdiv; rewrite Rmult_0_l; apply atan_0|]. destruct (Rlt_dec x 0); [lra|].
  destruct (Rlt_dec 0 0); lra.
Qed.
Lemma atan2_opp_sq y x : atan2 (- y) x * atan2 (- y) x = atan2 y x * atan2 y x.
Proof.
  destruct (Req_dec y 0) as [->|NY]; [rewrite Ropp_0; reflexivity|]. unfold atan2.
  replace (- y / x) with (- (y / x)) by (unfold Rdiv; ring).
  destruct (Rlt_dec 0 x); [rewrite atan_opp; ring|]. destruct (Rlt_dec x 0).
  - rewrite atan_opp. destruct (Rle_dec 0 y), (Rle_dec 0 (- y)); try lra; ring.
  - destruct (Rlt_dec 0 y), (Rlt_dec 0 (- y)), (Rlt_dec y 0), (Rlt_dec (- y) 0); try lra; ring.
Qed.
Lemma delta_phi_self p : delta_phi p p = 0.
Proof. unfold delta_phi. replace (py p * px p - px p * py p) with 0 by ring. apply atan2_0_nonneg. nra. Qed.
Lemma delta_phi_sq p q : delta_phi p q * delta_phi p q = delta_phi q p * delta_phi q p.
Proof.
  unfold delta_phi. replace (py p * px q - px p * py q) with (- (py q * px p - px q * py p)) by ring. rewrite atan2_opp_sq.
  replace (px p * px q + py p * py q) with (px q * px p + py q * py p) by ring. reflexivity.
Qed.
Lemma delta_entry_sym rap p q : delta_entry rap p q = delta_entry rap q p.
Proof.
  assert (G : forall x y, x * x = y * y -> Fin (sqrt (x * x + delta_phi p q * delta_phi p q)) = Fin (sqrt (y * y + delta_phi q p * delta_phi q p))).
  { intros x y E. rewrite E, (delta_phi_sq p q). reflexivity. }
  unfold delta_entry. destruct (rap p), (rap q); cbn; try reflexivity; apply G; ring.
Qed.
Lemma delta_entry_self rap p : delta_entry rap p p = Fin 0.
Proof.
  assert (G : forall x, x = 0 -> Fin (sqrt (x * x + 0 * 0)) = Fin 0) by (intros x ->; replace (0 * 0 + 0 * 0) with 0 by ring; rewrite sqrt_0; reflexivity).
  unfold delta_entry. rewrite delta_phi_self. destruct (rap p); cbn; apply G; ring.
Qed.

(** Azimuth difference. *)
Lemma delta_phi_spec p q : 0 < pt_sq p -> 0 < pt_sq q -> -PI < delta_phi p q <= PI /\ same_angle (delta_phi p q) (atan2 (py p) (px p) - atan2 (py q) (px q)).
Proof.
  intros HP HQ. split; [apply atan2_bound|].
  destruct (atan2_spec (py p) (px p)) as (_ & P1 & P2). destruct (atan2_spec (py q) (px q)) as (_ & Q1 & Q2).
  unfold delta_phi. set (dy := py p * px q - px p * py q). set (dx := px p * px q + py p * py q). destruct (atan2_spec dy dx) as (_ & D1 & D2).
  set (a := atan2 (py p) (px p)) in *. set (b := atan2 (py q) (px q)) in *. set (d := atan2 dy dx) in *.
  assert (E : dx * dx + dy * dy = pt_sq p * pt_sq q) by (unfold dx, dy, pt_sq; ring).
  rewrite E, sqrt_mult in D1, D2 by lra. fold (pt_sq p) in P1, P2. fold (pt_sq q) in Q1, Q2.
  assert (0 < sqrt (pt_sq p)) by (apply sqrt_lt_R0; exact HP). assert (0 < sqrt (pt_sq q)) by (apply sqrt_lt_R0; exact HQ).
  set (u := sqrt (pt_sq p)) in *. set (v := sqrt (pt_sq q)) in *.
  apply same_angle_trig; apply (Rmult_eq_reg_l (u * v)); try nra; rewrite <- ?D1, <- ?D2.
  - unfold dx. rewrite cos_minus. rewrite P1, P2, Q1, Q2. ring.
  - unfold dy. rewrite sin_minus. rewrite P1, P2, Q1, Q2. ring.
Qed.

(** |d| is minimal among all angles equal to it modulo a turn. *)
Lemma wrapped_min d a : -PI < d <= PI -> same_angle d a -> Rabs d <= Rabs a.
Proof.
  intros (H1 & H2) (k & E). pose proof PI_RGT_0. destruct (Z.eq_dec k 0) as [->|N]; [rewrite Rmult_0_r, Rplus_0_r in E; subst; lra|].
  destruct (Z_lt_le_dec k 0) as [L|L].
  - assert (IZR k <= -1) by (apply IZR_le; lia). assert (a >= PI) by nra. rewrite (Rabs_pos_eq a) by lra. apply Rabs_le. lra.
  - assert (1 <= IZR k) by (apply IZR_le; lia). assert (a <= - PI) by nra. rewrite (Rabs_left a) by lra. apply Rabs_le. lra.
Qed.
Lemma same_angle_add a b c d : same_angle a b -> same_angle c d -> same_angle (a + c) (b + d).
Proof. intros (k & ->) (j & ->). exists (k + j)%Z. rewrite plus_IZR. ring. Qed.
Lemma same_angle_sym a b : same_angle a b -> same_angle b a.
Proof. intros (k & ->). exists (- k)%Z. rewrite opp_IZR. ring. Qed.
Lemma same_angle_trans a b c : same_angle a b -> same_angle b c -> same_angle a c.
Proof. intros (k & ->) (j & ->). exists (k + j)%Z. rewrite plus_IZR. ring. Qed.

Lemma delta_phi_tri p q r : 0 < pt_sq p -> 0 < pt_sq q -> 0 < pt_sq r -> Rabs (delta_phi p r) <= Rabs (delta_phi p q) + Rabs (delta_phi q r).
Proof.
  intros HP HQ HR. apply Rle_trans with (Rabs (delta_phi p q + delta_phi q r)); [|apply Rabs_triang].
  apply wrapped_min; [apply atan2_bound|]. destruct (delta_phi_spec p r HP HR) as (_ & A). destruct (delta_phi_spec p q HP HQ) as (_ & B). destruct (delta_phi_spec q r HQ HR) as (_ & C).
  eapply same_angle_trans; [exact A|]. apply same_angle_sym. replace (atan2 (py p) (px p) - atan2 (py r) (px r)) with ((atan2 (py p) (px p) - atan2 (py q) (px q)) + (atan2 (py q) (px q) - atan2 (py r) (px r))) by ring. apply same_angle_add; assumption.
Qed.

Lemma hypot_mono a b c d : Rabs a <= c -> Rabs b <= d -> sqrt (a * a + b * b) <= sqrt (c * c + d * d).
Proof.
  intros H1 H2. apply sqrt_le_1_alt. pose proof (Rabs_pos a). pose proof (Rabs_pos b).
  replace (a * a) with (Rabs a * Rabs a) by (rewrite <- Rabs_mult; apply Rabs_pos_eq; nra).
  replace (b * b) with (Rabs b * Rabs b) by (rewrite <- Rabs_mult; apply Rabs_pos_eq; nra). nra.
Qed.
Lemma hypot_tri a b c d : sqrt ((a + c) * (a + c) + (b + d) * (b + d)) <= sqrt (a * a + b * b) + sqrt (c * c + d * d).
Proof.
  set (u := sqrt (a * a + b * b)). set (v := sqrt (c * c + d * d)). assert (0 <= u) by apply sqrt_pos. assert (0 <= v) by apply sqrt_pos.
  assert (U : u * u = a * a + b * b) by (apply sqrt_sqrt; nra). assert (V : v * v = c * c + d * d) by (apply sqrt_sqrt; nra).
  rewrite <- (sqrt_square (u + v)) by lra. apply sqrt_le_1_alt.
  assert (a * c + b * d <= u * v); [|nra]. apply Rnot_lt_le. intros C. pose proof (Rle_0_sqr (a * d - b * c)) as SS; unfold Rsqr in SS.
  assert (SQ : forall s t, 0 <= s -> s < t -> s * s < t * t) by (intros s t A B; nra).
  specialize (SQ (u * v) (a * c + b * d) ltac:(apply Rmult_le_pos; assumption) C).
  replace (u * v * (u * v)) with ((u * u) * (v * v)) in SQ by ring. rewrite U, V in SQ. nra.
Qed.

(** ** The symmetric loop *)
Lemma sym_writes_solo (f : nat -> ext) i js (m : mem cell ext) c : NoDup js -> ~ In i js ->
  solo (flat_map (fun j => [write i j (f j); write j i (f j)]) js) tt m c =
  if (Nat.eqb i (fst c) && existsb (Nat.eqb (snd c)) js)%bool then f (snd c)
  else if (Nat.eqb i (snd c) && existsb (Nat.eqb (fst c)) js)%bool then f (fst c) else m c.
Proof.
  revert m. induction js as [|j js IH]; intros m ND NI; cbn [flat_map app solo]; [rewrite !Bool.andb_false_r; reflexivity|].
  inversion ND as [|? ? NJ ND']; subst. unfold write at 1, put_cell at 1. unfold write at 1, put_cell at 1. rewrite IH; [|exact ND'|intros H; apply NI; right; exact H].
  destruct c as (a, b). cbn [fst snd existsb]. unfold cell_eqb; cbn.
  assert (j <> i) by (intros ->; apply NI; left; reflexivity).
  destruct (Nat.eqb_spec i a) as [Ea|Na], (Nat.eqb_spec i b) as [Eb|Nb]; cbn; rewrite ?Bool.andb_false_r, ?Bool.andb_true_r; try reflexivity.
  - destruct (existsb (Nat.eqb b) js) eqn:E1; cbn.
    + exfalso. apply existsb_exists in E1 as (x & Hx & E). apply Nat.eqb_eq in E. apply NI. right. rewrite Eb, E. exact Hx.
    + assert (EAB : a = b) by congruence. rewrite EAB. destruct (Nat.eqb_spec j b); [congruence|]. destruct (Nat.eqb_spec b j); [congruence|]. rewrite E1. reflexivity.
  - rewrite (Nat.eqb_sym j b). destruct (existsb (Nat.eqb b) js) eqn:E1; cbn; [rewrite Bool.orb_true_r; reflexivity|]. rewrite Bool.orb_false_r.
    destruct (Nat.eqb_spec j a); [congruence|]. cbn. destruct (Nat.eqb_spec b j) as [->|]; reflexivity.
  - rewrite (Nat.eqb_sym j a). destruct (existsb (Nat.eqb a) js) eqn:E1; cbn; [rewrite Bool.orb_true_r; reflexivity|]. rewrite Bool.orb_false_r.
    destruct (Nat.eqb_spec a j) as [->|]; reflexivity.
Qed.

Lemma sym_body_confined rap l i : Forall (confined (fun c : cell => Nat.min (fst c) (snd c) = i)) (fst (delta_R_sym_body rap l i)).
Proof.
  unfold delta_R_sym_body. cbn [fst]. constructor; [apply confined_put; [apply cell_eqb_eq | cbn; lia]|].
  apply Forall_forall. intros a Ha. apply in_flat_map in Ha as (j & Hj & Ha). apply in_seq in Hj. destruct Ha as [<-|[<-|[]]]; (apply confined_put; [apply cell_eqb_eq | cbn; lia]).
Qed.

Theorem delta_R_sym_result rap l m0 m : runs (delta_R_sym_loop rap l) m0 m ->
  read_out (length l) (length l) m = delta_R rap l l.
Proof.
  intros H. set (F := fun (i : nat) (c : cell) => Nat.min (fst c) (snd c) = i).
  destruct (fun HD => runs_disjoint F HD (delta_R_sym_loop rap l) m0 m H) as (A & _); [unfold F; congruence | |].
  { intros i p lc Hp. unfold delta_R_sym_loop in Hp. rewrite nth_error_map', seq_nth_error in Hp. destruct (Nat.ltb i (length l)); [|discriminate]. cbn [option_map] in Hp.
    injection Hp as <- <-. apply (sym_body_confined rap l i). }
  assert (A' : forall i c, (i < length l)%nat -> Nat.min (fst c) (snd c) = i -> m c = solo (fst (delta_R_sym_body rap l i)) tt m0 c).
  { intros i c Hi Hc. apply (A i (fst (delta_R_sym_body rap l i)) tt); [|exact Hc]. unfold delta_R_sym_loop. rewrite nth_error_map', seq_nth_error.
    destruct (Nat.ltb_spec i (length l)); [reflexivity|lia]. }
  unfold read_out, delta_R. apply map_seq_eq. intros i p Hp. apply map_seq_eq. intros j q Hq.
  assert (HL : (i < length l)%nat) by (apply nth_error_Some; congruence). assert (HR : (j < length l)%nat) by (apply nth_error_Some; congruence).
  assert (EX : forall a b, (a < b)%nat -> (b < length l)%nat -> existsb (Nat.eqb b) (seq (a + 1) (length l - (a + 1))) = true)
    by (intros a b H1 H2; apply existsb_exists; exists b; split; [apply in_seq; lia | apply Nat.eqb_refl]).
  assert (NX : forall a, existsb (Nat.eqb a) (seq (a + 1) (length l - (a + 1))) = false).
  { intros a. apply Bool.not_true_iff_false. intros E. apply existsb_exists in E as (x & Hx & E). apply Nat.eqb_eq in E. apply in_seq in Hx. lia. }
  assert (NI : forall a, ~ In a (seq (a + 1) (length l - (a + 1)))) by (intros a Hx; apply in_seq in Hx; lia).
  rewrite (A' (Nat.min i j) (i, j)); [|lia|reflexivity]. unfold delta_R_sym_body. cbn [fst solo]. unfold write at 1, put_cell at 1.
  rewrite (sym_writes_solo (fun j' => delta_entry rap (nthm l (Nat.min i j)) (nthm l j'))); [|apply seq_NoDup|apply NI]. cbn [fst snd].
  destruct (lt_eq_lt_dec i j) as [[L|E]|L].
  - rewrite Nat.min_l by lia. rewrite Nat.eqb_refl, EX by assumption. cbn. rewrite (nthm_some _ _ _ Hp), (nthm_some _ _ _ Hq). reflexivity.
  - subst j. rewrite Nat.min_id, NX, Bool.andb_false_r. unfold cell_eqb; cbn. rewrite Nat.eqb_refl. cbn. rewrite Hp in Hq. injection Hq as <-. symmetry. apply delta_entry_self.
  - rewrite Nat.min_r by lia. destruct (Nat.eqb_spec j i); [lia|]. cbn. rewrite Nat.eqb_refl, EX by assumption. cbn. rewrite (nthm_some _ _ _ Hp), (nthm_some _ _ _ Hq). apply delta_entry_sym.
Qed.

(** ** Clustering coefficients *)
Theorem clust_loop_result adj m0 m : runs (clust_loop adj) m0 m -> map m (seq 0 (length adj)) = map (clust_coeff adj) (seq 0 (length adj)).
Proof.
  intros H. destruct (fun HD => runs_disjoint (fun (i c : nat) => c = i) HD (clust_loop adj) m0 m H) as (A & _); [congruence | |].
  { intros i p lc Hp. unfold clust_loop in Hp. rewrite nth_error_map', seq_nth_error in Hp. destruct (Nat.ltb i (length adj)); [|discriminate]. cbn in Hp. injection Hp as <- <-.
    constructor; [|constructor]. apply confined_put; [intros x y; apply Nat.eqb_eq|reflexivity]. }
  apply map_ext_in. intros i Hi. apply in_seq in Hi. rewrite (A i [put_cell Nat.eqb i (clust_coeff adj i)] tt); [| |reflexivity].
  - cbn. rewrite Nat.eqb_refl. reflexivity.
  - unfold clust_loop. rewrite nth_error_map', seq_nth_error. destruct (Nat.ltb_spec i (length adj)); [reflexivity|lia].
Qed.
