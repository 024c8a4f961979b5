(** C53, C68, C69, C77 - C80, C93, C94. *)
From Verif Require Import Prelude Keys SpecReal SpecDist RealBase Kinem KinemProofs Par DeltaR DeltaRProofs P_Kinem PartProofs Coords.
Open Scope R_scope.

(** ** C68 combined_mass *)
Lemma mink_self p : px p * px p * -1 + py p * py p * -1 + pz p * pz p * -1 + en p * en p * 1 = mink p p.
Proof. unfold mink. ring. Qed.
Lemma floor_root x : let m := if Rlt_dec x 0 then 0 else sqrt x in 0 <= m /\ m * m = Rmax 0 x.
Proof.
  cbv zeta. destruct (Rlt_dec x 0).
  - split; [lra|]. rewrite Rmax_left by lra. ring.
  - split; [apply sqrt_pos|]. rewrite Rmax_right by lra. apply sqrt_sqrt. lra.
Qed.
Theorem C68_combined_mass : forall l, exists m, combined_mass l NoWeight = Ok m /\ 0 <= m /\ m * m = Rmax 0 (mink (msum l) (msum l)) /\
  (0 <= mink (msum l) (msum l) -> m = mass (msum l)) /\
  (forall l', Permutation l l' -> combined_mass l' NoWeight = Ok m) /\
  (forall s l', shift_rapidity (Scalar s) l = Ok l' -> combined_mass l' NoWeight = Ok m) /\
  (forall s l', shift_phi (Scalar s) l = Ok l' -> combined_mass l' NoWeight = Ok m).
Proof.
  intros l. unfold combined_mass, weigh. cbn [bind]. eexists. split; [reflexivity|]. rewrite !mink_self. destruct (floor_root (mink (msum l) (msum l))) as (A & B).
  split; [exact A|]. split; [exact B|]. split; [|split; [|split]].
  - intros H. apply signed_root_unique with (mink (msum l) (msum l)); [|apply mass_root]. destruct (Rlt_dec _ 0); [lra|]. split; [rewrite sqrt_sqrt, Rabs_pos_eq by lra; reflexivity|]. apply Rmult_le_pos; [apply sqrt_pos|exact H].
  - intros l' P. rewrite <- (msum_perm _ _ P), mink_self. reflexivity.
  - intros s l'. unfold shift_rapidity, spread. cbn [bind]. rewrite map2_repeat. intros E; injection E as <-. rewrite msum_boost, mink_self, mink_boost. reflexivity.
  - intros s l'. unfold shift_phi, spread. cbn [bind]. rewrite map2_repeat. intros E; injection E as <-. rewrite msum_rotate, mink_self, mink_rotate. reflexivity.
Qed.
(** A table of weights: the mass of the weighted sum. *)
Theorem C68_weighted : forall l ws, length ws = length l -> exists m T, combined_mass l (Table ws) = Ok m /\ 0 <= m /\ m * m = Rmax 0 (mink T T) /\
  px T = rsum (map2 (fun w p => px w * px p) ws l) /\ py T = rsum (map2 (fun w p => py w * py p) ws l) /\
  pz T = rsum (map2 (fun w p => pz w * pz p) ws l) /\ en T = rsum (map2 (fun w p => en w * en p) ws l).
Proof.
  intros l ws HL. unfold combined_mass, weigh. rewrite HL, Nat.eqb_refl. cbn [bind]. eexists. exists (msum (map2 wmul ws l)). split; [reflexivity|]. rewrite mink_self.
  destruct (floor_root (mink (msum (map2 wmul ws l)) (msum (map2 wmul ws l)))) as (A & B). split; [exact A|]. split; [exact B|].
  assert (G : forall (f : mom -> R) g, (forall w p, f (wmul w p) = g w p) -> forall ws l, map f (map2 wmul ws l) = map2 g ws l).
  { clear. intros f g H. induction ws as [|w ws IH]; intros [|p l]; cbn; try reflexivity. rewrite H, IH. reflexivity. }
  rewrite msum_components. cbn. repeat split; f_equal; apply G; reflexivity.
Qed.
(** A table with another number of rows: one row is used for all particles, one particle for all rows, else refused. *)
Theorem C68_table_rows : forall l ws,
  (length ws <> length l -> length ws <> 1%nat -> length l <> 1%nat -> combined_mass l (Table ws) = Err ValueError) /\
  (forall w, ws = [w] -> combined_mass l (Table ws) = combined_mass l (Table (map (fun _ => w) l))) /\
  (forall p, l = [p] -> combined_mass l (Table ws) = combined_mass (map (fun _ => p) ws) (Table ws)).
Proof.
  intros l ws. unfold combined_mass, weigh. split; [|split].
  - intros H H1 H2. apply Nat.eqb_neq in H. rewrite H. destruct ws as [|w [|w' ws]]; [| cbn in H1; congruence |]; (destruct l as [|p [|p' l]]; [reflexivity | cbn in H2; congruence | reflexivity]).
  - intros w ->. assert (G : map2 wmul (map (fun _ => w) l) l = map (wmul w) l) by (induction l as [|p l IH]; cbn; [reflexivity | rewrite IH; reflexivity]).
    rewrite map_length, Nat.eqb_refl, G. destruct (Nat.eqb_spec (length [w]) (length l)) as [E|E]; [|reflexivity]. destruct l as [|p [|q l]]; try discriminate. reflexivity.
  - intros p ->. assert (G : map2 wmul ws (map (fun _ => p) ws) = map (fun w => wmul w p) ws) by (induction ws as [|w ws IH]; cbn; [reflexivity | rewrite IH; reflexivity]).
    rewrite map_length, Nat.eqb_refl, G. destruct (Nat.eqb_spec (length ws) (length [p])) as [E|E]; [|destruct ws as [|w [|w' ws]]; try reflexivity; cbn in E; congruence]. destruct ws as [|w [|w' ws]]; try discriminate. reflexivity.
Qed.
Example C68_demo : combined_mass [Mom 3 4 0 5; Mom (-3) (-4) 0 5] NoWeight = Ok 10 /\ combined_mass [Mom 3 4 0 1] NoWeight = Ok 0.
Proof.
  unfold combined_mass. cbn. split; f_equal; destruct (Rlt_dec _ 0); try lra.
  apply Rsqr_inj; [apply sqrt_pos | lra |]. rewrite Rsqr_sqrt by lra. unfold Rsqr. lra.
Qed.

(** C93: one weight per particle as a flat vector. *)
Theorem C93_flat_weights_refuted :
  (forall l ws, length ws = length l -> length l <> 1%nat -> length l <> 4%nat -> combined_mass l (Flat ws) = Err ValueError) /\
  (let p := Mom 0 0 0 1 in combined_mass [p; p; p; p] (Flat [1; 1; 1; 2]) = Ok 8 /\
     combined_mass [p; p; p; p] (Table [Mom 1 1 1 1; Mom 1 1 1 1; Mom 1 1 1 1; Mom 2 2 2 2]) = Ok 5).
Proof.
  split.
  - intros l ws HL H1 H4. unfold combined_mass, weigh. destruct ws as [|a [|b [|c [|d [|e ws]]]]]; cbn in HL; try reflexivity; congruence.
  - cbn. unfold combined_mass. cbn. split; f_equal; (destruct (Rlt_dec _ 0); [lra|]); (apply Rsqr_inj; [apply sqrt_pos | lra |]; rewrite Rsqr_sqrt by lra; unfold Rsqr; lra).
Qed.
(** What flat vectors of length 1 or 4 do mean. *)
Theorem C93_flat_weights_partial : forall l a b c d,
  combined_mass l (Flat [a]) = combined_mass l (Table (map (fun _ => Mom a a a a) l)) /\
  combined_mass l (Flat [a; b; c; d]) = combined_mass l (Table (map (fun _ => Mom a b c d) l)).
Proof.
  intros l a b c d. assert (G : forall w, map2 wmul (map (fun _ => w) l) l = map (wmul w) l) by (intros w; induction l as [|p l IH]; cbn; [reflexivity | rewrite IH; reflexivity]).
  unfold combined_mass, weigh. rewrite !map_length, Nat.eqb_refl, !G. split; reflexivity.
Qed.

(** ** C69 aggregate_momenta *)
Lemma compress_all_false {A} (l : list A) m : (forall b, In b m -> b = false) -> compress m l = [].
Proof. revert m. induction l as [|x l IH]; intros [|[|] m] H; try reflexivity; [specialize (H true (or_introl eq_refl)); discriminate|]. cbn. apply IH. intros b Hb. apply H. right. exact Hb. Qed.

Lemma rsum_compress (f : mom -> R) m l : length m = length l -> rsum (map f (compress m l)) = rsum (map2 (fun (b : bool) p => if b then f p else 0) m l).
Proof.
  revert l. induction m as [|b m IH]; intros [|p l] H; try discriminate; [reflexivity|]. cbn in *. injection H as H. specialize (IH l H). destruct b; cbn; rewrite IH; lra.
Qed.
Lemma rsum_partition (f : mom -> R) : forall l masks, (forall m, In m masks -> length m = length l) ->
  (forall i, (i < length l)%nat -> exists! j, exists m, nth_error masks j = Some m /\ nth_error m i = Some true) ->
  rsum (map (fun m => rsum (map f (compress m l))) masks) = rsum (map f l).
Proof.
  induction l as [|p l IH]; intros masks HL HU.
  - cbn. transitivity (rsum (map (fun _ : list bool => 0) masks)).
    + apply rsum_map_ext. intros m Hm. specialize (HL m Hm). destruct m; [reflexivity|discriminate].
    + clear. induction masks as [|m ms IH]; cbn; [reflexivity|]. rewrite IH. lra.
  - assert (E : forall m, In m masks -> m = hd false m :: tl m) by (intros m Hm; specialize (HL m Hm); destruct m; [discriminate|reflexivity]).
    transitivity (rsum (map (fun m => (if hd false m then f p else 0) + rsum (map f (compress (tl m) l))) masks)).
    { apply rsum_map_ext. intros m Hm. rewrite (E m Hm) at 1. destruct (hd false m); cbn; lra. }
    rewrite rsum_map_plus. cbn. f_equal.
    + (* exactly one mask has the head *)
      destruct (HU 0%nat ltac:(cbn; lia)) as (j & (m & Hm & H0) & UQ).
      assert (G : forall (ms : list (list bool)) j m, nth_error ms j = Some m -> hd false m = true -> (forall k m', nth_error ms k = Some m' -> hd false m' = true -> k = j) ->
        rsum (map (fun m : list bool => if hd false m then f p else 0) ms) = f p).
      { clear. induction ms as [|x ms IH]; intros j m Hj Hh HU; [destruct j; discriminate|]. destruct j as [|j].
        - injection Hj as ->. cbn. rewrite Hh. assert (Z : rsum (map (fun m : list bool => if hd false m then f p else 0) ms) = 0); [|lra].
          assert (A : forall x, In x ms -> hd false x = false). { intros x Hx. apply In_nth_error in Hx as (k & Hk). destruct (hd false x) eqn:E; [|reflexivity]. specialize (HU (S k) x Hk E). discriminate. }
          clear - A. induction ms as [|y ms IH]; cbn; [reflexivity|]. rewrite (A y (or_introl eq_refl)), IH; [lra | intros x Hx; apply A; right; exact Hx].
        - cbn. destruct (hd false x) eqn:Ex; [specialize (HU 0%nat x eq_refl Ex); discriminate|]. rewrite (IH j m Hj Hh); [lra|]. intros k m' Hk Hh'. specialize (HU (S k) m' Hk Hh'). lia. }
      apply (G masks j m Hm).
      * destruct m; [discriminate|]. cbn in H0. injection H0 as ->. reflexivity.
      * intros k m' Hk Hh. symmetry. apply UQ. exists m'. split; [exact Hk|]. destruct m'; [discriminate|]. cbn in *. subst. reflexivity.
    + rewrite <- map_map with (f := @tl bool) (g := fun t => rsum (map f (compress t l))). apply IH.
      * intros m Hm. apply in_map_iff in Hm as (m' & <- & Hm'). specialize (HL m' Hm'). destruct m'; [discriminate|]. cbn in *. lia.
      * intros i Hi. destruct (HU (S i) ltac:(cbn; lia)) as (j & (m & Hm & H0) & UQ). exists j. split.
        -- exists (tl m). rewrite nth_error_map', Hm. split; [reflexivity|]. destruct m; [discriminate|exact H0].
        -- intros k (m' & Hk & Hm'). rewrite nth_error_map' in Hk. destruct (nth_error masks k) as [mk|] eqn:Ek; [|discriminate]. injection Hk as <-. apply UQ. exists mk. split; [exact Ek|]. destruct mk; [destruct i; discriminate|exact Hm'].
Qed.

Theorem C69_aggregate : forall l masks, (forall m, In m masks -> length m = length l) ->
  exists out, aggregate_momenta l masks = Ok out /\ length out = length masks /\
  (forall j m, nth_error masks j = Some m -> exists s, nth_error out j = Some s /\ s = msum (compress m l) /\
      ((forall b, In b m -> b = false) -> s = mzero)) /\
  ((forall i, (i < length l)%nat -> exists! j, exists m, nth_error masks j = Some m /\ nth_error m i = Some true) -> msum out = msum l).
Proof.
  intros l masks HL. exists (map (fun m => msum (compress m l)) masks). split; [|split; [|split]].
  - unfold aggregate_momenta. rewrite <- mapM_pure. apply mapM_ext. intros m Hm. rewrite getkey_mask by (apply HL, Hm). reflexivity.
  - apply map_length.
  - intros j m Hm. rewrite nth_error_map', Hm. eexists. split; [reflexivity|]. split; [reflexivity|]. intros HF. rewrite compress_all_false by exact HF. reflexivity.
  - intros HU. rewrite !(msum_components (map _ masks)), (msum_components l). rewrite !map_map.
    assert (G : forall f : mom -> R, (forall s, f (msum s) = rsum (map f s)) -> rsum (map (fun x => f (msum (compress x l))) masks) = rsum (map f l)).
    { intros f Hf. rewrite <- (rsum_partition f l masks HL HU). apply rsum_map_ext. intros m _. apply Hf. }
    f_equal; apply G; intros s; rewrite msum_components; reflexivity.
Qed.
(** A mask of the wrong length raises. *)
Theorem C69_wrong_length : forall l a m b, (forall x, In x a -> length x = length l) -> length m <> length l ->
  aggregate_momenta l (a ++ m :: b) = Err IndexError.
Proof.
  intros l a m b HA HM. unfold aggregate_momenta. induction a as [|x a IH]; cbn.
  - unfold getkey. cbn. apply Nat.eqb_neq in HM. rewrite HM. reflexivity.
  - rewrite getkey_mask by (apply HA; left; reflexivity). cbn. rewrite IH; [reflexivity | intros y Hy; apply HA; right; exact Hy].
Qed.
Example C69_demo : let masks := [[true; false; true]; [false; true; false]] in
  forall i, (i < 3)%nat -> exists! j, exists m, nth_error masks j = Some m /\ nth_error m i = Some true.
Proof.
  intros masks i Hi. destruct i as [|[|[|i]]]; [exists 0%nat|exists 1%nat|exists 0%nat|lia]; (split; [eexists; split; reflexivity|]); intros [|[|k]] (m & Hm & H); try reflexivity; cbn in Hm; try (injection Hm as <-; discriminate); destruct k; discriminate.
Qed.

(** ** C77 weighted_centroid *)
Lemma esum_fin (l : list R) : forall a, fold_left eadd (map Fin l) (Fin a) = Fin (a + rsum l).
Proof. induction l as [|x l IH]; intros a; cbn; [f_equal; lra|]. rewrite IH. f_equal. lra. Qed.
Lemma rsum_weighted (y : mom -> R) l : (forall p, In p l -> 0 <= pt p) -> forall lo hi, (forall p, In p l -> lo <= y p <= hi) ->
  lo * rsum (map pt l) <= rsum (map (fun p => y p * pt p) l) <= hi * rsum (map pt l).
Proof.
  intros HP lo hi HY. rewrite <- !rsum_map_scal. split; apply rsum_map_le; intros p Hp; apply Rmult_le_compat_r; auto; apply HY, Hp.
Qed.
Theorem C77_rapidity_centroid : forall rap (y : mom -> R) l, (forall p, In p l -> rap p = Fin (y p)) -> 0 < rsum (map pt l) ->
  exists c, fst (weighted_centroid rap l) = Fin c /\ c * rsum (map pt l) = rsum (map (fun p => y p * pt p) l) /\
  (forall lo hi, (forall p, In p l -> lo <= y p <= hi) -> lo <= c <= hi) /\
  (forall k, (forall p, In p l -> y p = k) -> c = k).
Proof.
  intros rap y l HR HS. unfold weighted_centroid. cbn [fst].
  assert (E : map (fun p => emul (rap p) (pt p)) l = map Fin (map (fun p => y p * pt p) l)).
  { rewrite map_map. apply map_ext_in. intros p Hp. rewrite (HR p Hp). reflexivity. }
  rewrite E. unfold esum. rewrite esum_fin, Rplus_0_l. cbn [ediv]. destruct (Req_EM_T (rsum (map pt l)) 0) as [C|C]; [lra|]. eexists. split; [reflexivity|].
  assert (EQ : rsum (map (fun p => y p * pt p) l) / rsum (map pt l) * rsum (map pt l) = rsum (map (fun p => y p * pt p) l)) by (field; exact C).
  assert (HB : forall lo hi, (forall p, In p l -> lo <= y p <= hi) -> lo <= rsum (map (fun p => y p * pt p) l) / rsum (map pt l) <= hi).
  { intros lo hi HY. pose proof (rsum_weighted y l (fun p _ => pt_ge p) lo hi HY) as (A & B). rewrite <- EQ in A, B. split; eapply Rmult_le_reg_r; eauto. }
  split; [exact EQ|]. split; [exact HB|]. intros k HK. destruct (HB k k) as (A & B); [intros p Hp; rewrite (HK p Hp); lra|]. lra.
Qed.
Theorem C77_azimuth_centroid : forall rap l, (forall p, In p l -> ZERO_TOL < pt p) -> l <> [] ->
  exists c, snd (weighted_centroid rap l) = Fin c /\ -PI < c <= PI /\
    exists m, same_angle c m /\ m * rsum (map pt l) = rsum (map (fun p => atan2 (py p) (px p) * pt p) l).
Proof.
  intros rap l HP HN. unfold weighted_centroid. cbn [snd].
  assert (E : map (fun p => emul (phi p) (pt p)) l = map Fin (map (fun p => atan2 (py p) (px p) * pt p) l)).
  { rewrite map_map. apply map_ext_in. intros p Hp. unfold phi. destruct (Rle_dec (Rabs (pt p)) ZERO_TOL) as [C|C]; [rewrite Rabs_pos_eq in C by apply pt_ge; specialize (HP p Hp); lra|]. reflexivity. }
  assert (HS : 0 < rsum (map pt l)) by (apply rsum_map_pos; [exact HN|]; intros p Hp; specialize (HP p Hp); unfold ZERO_TOL in HP; lra).
  rewrite E. unfold esum. rewrite esum_fin, Rplus_0_l. cbn [ediv]. destruct (Req_EM_T (rsum (map pt l)) 0) as [C|C]; [lra|].
  set (m := rsum _ / rsum _). eexists. split; [reflexivity|]. split; [apply atan2_bound|]. exists m. split; [|unfold m; field; exact C].
  destruct (atan2_spec (sin m) (cos m)) as (_ & A & B). pose proof (sin2_cos2 m) as SC. unfold Rsqr in SC. replace (cos m * cos m + sin m * sin m) with 1 in A, B by lra. rewrite sqrt_1, Rmult_1_l in A, B.
  apply same_angle_trig; auto.
Qed.
Example C77_demo : 0 < rsum (map pt [Mom 3 4 0 5; Mom 0 1 2 3]) /\ forall p, In p [Mom 3 4 0 5; Mom 0 1 2 3] -> ZERO_TOL < pt p.
Proof.
  assert (A : pt (Mom 3 4 0 5) = 5) by (unfold pt; cbn; replace (3 * 3 + 4 * 4) with 25 by ring; apply sqrt25).
  assert (B : pt (Mom 0 1 2 3) = 1) by (unfold pt; cbn; replace (0 * 0 + 1 * 1) with 1 by ring; apply sqrt_1).
  cbn. rewrite A, B. split; [lra|]. intros p [<-|[<-|[]]]; [rewrite A|rewrite B]; unfold ZERO_TOL; lra.
Qed.
(** C94: the azimuth centroid does not follow a rotation. *)
Theorem C94_centroid_rotation_refuted : exists l l', shift_phi (Scalar PI) l = Ok l' /\
  snd (weighted_centroid eta l) = Fin 0 /\ snd (weighted_centroid eta l') = Fin 0 /\ ~ same_angle 0 (0 + PI).
Proof.
  set (l := [Mom (-1) 1 0 2; Mom (-1) (-1) 0 2]). exists l, (map (rotate PI) l). split; [unfold shift_phi, spread; cbn [bind]; rewrite map2_repeat; reflexivity|].
  assert (ER : map (rotate PI) l = [Mom 1 (-1) 0 2; Mom 1 1 0 2]).
  { unfold l, rotate. cbn [map px py pz en]. rewrite cos_PI, sin_PI. repeat f_equal; ring. }
  assert (P2 : forall x y, x * x = 1 -> y * y = 1 -> pt (Mom x y 0 2) = sqrt 2) by (intros x y A B; unfold pt; cbn; rewrite A, B; f_equal; ring).
  assert (S2 : 1 < sqrt 2) by (rewrite <- sqrt_1 at 1; apply sqrt_lt_1; lra).
  assert (G : forall p q a, pt p = sqrt 2 -> pt q = sqrt 2 -> atan2 (py p) (px p) = a -> atan2 (py q) (px q) = - a -> snd (weighted_centroid eta [p; q]) = Fin 0).
  { intros p q a A B C D. unfold weighted_centroid. cbn [map snd]. unfold phi. rewrite A, B, C, D. destruct (Rle_dec (Rabs (sqrt 2)) ZERO_TOL) as [X|_]; [rewrite Rabs_pos_eq in X by lra; unfold ZERO_TOL in X; lra|].
    unfold esum. cbn. destruct (Req_EM_T _ 0) as [X|_]; [lra|]. f_equal. replace ((0 + a * sqrt 2 + - a * sqrt 2) / (sqrt 2 + (sqrt 2 + 0))) with 0 by (field; lra).
    rewrite sin_0, cos_0. apply atan2_0_nonneg. lra. }
  assert (NB : forall y x, 0 < y -> atan2 (- y) x = - atan2 y x).
  { intros y x Hy. unfold atan2. replace (- y / x) with (- (y / x)) by (unfold Rdiv; ring). rewrite !atan_opp.
    destruct (Rlt_dec 0 x); [reflexivity|]. destruct (Rlt_dec x 0); [destruct (Rle_dec 0 y), (Rle_dec 0 (- y)); lra|]. destruct (Rlt_dec 0 (- y)), (Rlt_dec (- y) 0), (Rlt_dec 0 y); lra. }
  split; [|split].
  - unfold l. apply G with (atan2 1 (-1)); try (apply P2; ring); [reflexivity|]. cbn. replace (-1) with (- (1)) at 1 by ring. rewrite NB by lra. reflexivity.
  - rewrite ER. apply G with (- atan2 1 1); try (apply P2; ring); cbn; [|ring]. replace (-1) with (- (1)) by ring. rewrite NB by lra. reflexivity.
  - intros (k & E). pose proof PI_RGT_0 as HPI. assert (2 * IZR k = -1) by (apply (Rmult_eq_reg_l PI); [lra|lra]). assert (IZR (2 * k) = IZR (-1)) by (rewrite mult_IZR; lra). apply eq_IZR in H0. lia.
Qed.
(** It does when no azimuth crosses the branch cut. *)
Theorem C94_centroid_rotation_partial : forall rap a l l', l <> [] -> shift_phi (Scalar a) l = Ok l' ->
  (forall p, In p l -> ZERO_TOL < pt p /\ -PI < atan2 (py p) (px p) + a <= PI) ->
  exists c c', snd (weighted_centroid rap l) = Fin c /\ snd (weighted_centroid rap l') = Fin c' /\ same_angle c' (c + a).
Proof.
  intros rap a l l' HN HS HP. unfold shift_phi, spread in HS. cbn [bind] in HS. rewrite map2_repeat in HS. injection HS as <-.
  destruct (C77_azimuth_centroid rap l) as (c & E & _ & m & Sm & Em); [intros p Hp; apply HP, Hp | exact HN |].
  destruct (C77_azimuth_centroid rap (map (rotate a) l)) as (c' & E' & _ & m' & Sm' & Em').
  { intros p Hp. apply in_map_iff in Hp as (q & <- & Hq). rewrite rotate_pt. apply HP, Hq. } { destruct l; [contradiction|discriminate]. }
  exists c, c'. split; [exact E|]. split; [exact E'|]. eapply same_angle_trans; [exact Sm'|]. apply same_angle_sym in Sm.
  assert (HPos : 0 < rsum (map pt l)) by (apply rsum_map_pos; [exact HN|]; intros p Hp; destruct (HP p Hp) as (A & _); unfold ZERO_TOL in A; lra).
  assert (EM : m' = m + a).
  { rewrite !map_map in Em'. rewrite (rsum_map_ext (fun x => pt (rotate a x)) pt) in Em' by (intros; apply rotate_pt).
    rewrite (rsum_map_ext (fun x => atan2 (py (rotate a x)) (px (rotate a x)) * pt (rotate a x)) (fun p => atan2 (py p) (px p) * pt p + a * pt p)) in Em'.
    - rewrite rsum_map_plus, rsum_map_scal, <- Em in Em'. apply (Rmult_eq_reg_r (rsum (map pt l))); lra.
    - intros p Hp. rewrite rotate_pt. destruct (HP p Hp) as (A & B). replace (atan2 (py (rotate a p)) (px (rotate a p))) with (atan2 (py p) (px p) + a); [ring|].
      destruct (C60_shift_phi a [p]) as (l1 & E1 & _ & H1 & _). unfold shift_phi, spread in E1. cbn in E1. injection E1 as <-. destruct (H1 0%nat p eq_refl) as (q & Hq & _ & _ & _ & HF). cbn in Hq. injection Hq as <-.
      specialize (HF (atan2 (py p) (px p))). unfold phi in HF. destruct (Rle_dec (Rabs (pt p)) ZERO_TOL) as [C|_]; [rewrite Rabs_pos_eq in C by apply pt_ge; lra|]. destruct (HF eq_refl) as (f' & Ef & Bf & Sf).
      destruct (Rle_dec _ ZERO_TOL) in Ef; [discriminate|]. injection Ef as <-. destruct Sf as (k & Ek). pose proof (trig_period (atan2 (py p) (px p) + a) k) as (T1 & T2). rewrite <- Ek in T1, T2.
      symmetry. apply angle_unique; auto. }
  rewrite EM. destruct Sm as (k & ->). exists k. ring.
Qed.

(** ** C78, C79 from_spherical_uniform *)
Theorem C78_spherical : forall massless emax ds, 0 <= massless <= 1 ->
  (forall d, In d ds -> 0 <= d_e d <= emax /\ 0 <= d_m d <= d_e d /\ 0 <= d_r d <= 1) ->
  exists l, from_spherical_uniform massless ds = Ok l /\ length l = length ds /\
  forall i p d, nth_error l i = Some p -> nth_error ds i = Some d ->
    en p = d_e d /\ 0 <= en p <= emax /\ p_sq p <= en p * en p /\
    (mass p = 0 \/ mass p = d_m d) /\ (massless = 0 -> mass p = d_m d) /\ (massless = 1 -> mass p = 0) /\
    (0 < massless < 1 -> mass p = if Rlt_dec (d_u d) massless then 0 else d_m d).
Proof.
  intros ml emax ds Hm HD. unfold from_spherical_uniform. destruct (Rle_dec 0 ml); [|lra]. destruct (Rle_dec ml 1); [|lra]. eexists. split; [reflexivity|]. split; [apply map_length|].
  intros i p d Hp Hd. rewrite nth_error_map', Hd in Hp. injection Hp as <-. destruct (HD d (nth_error_In _ _ Hd)) as (HE & HM & HR).
  set (um := if Req_EM_T ml 0 then _ else _).
  assert (RD : let k := root_diff_two_squares (d_e d) (d_m d) in k * k = d_e d * d_e d - d_m d * d_m d).
  { cbv zeta. destruct (root_diff_spec (d_e d) (d_m d)) as (A & _). rewrite A. apply Rabs_pos_eq. nra. }
  set (t := match um with Some m => m | None => 0 end).
  assert (PS : p_sq (spherical_one (d_e d) um (d_r d) (d_phi d)) = d_e d * d_e d - t * t).
  { unfold spherical_one, p_sq. cbn [px py pz en]. set (pm := match um with None => _ | Some m => _ end). set (th := acos _).
    transitivity (pm * pm * (Rsqr (sin th) + Rsqr (cos th) * (Rsqr (sin (d_phi d)) + Rsqr (cos (d_phi d))))); [unfold Rsqr; ring|]. rewrite sin2_cos2, Rmult_1_r, sin2_cos2, Rmult_1_r.
    assert (UM : um = None \/ um = Some (d_m d)) by (unfold um; destruct (Req_EM_T ml 0); [right; reflexivity|]; destruct (Rlt_dec ml 1); [destruct (Rlt_dec (d_u d) ml); [left|right]; reflexivity | left; reflexivity]).
    unfold pm, t. destruct UM as [->| ->]; [ring|]. rewrite RD. ring. }
  assert (TT : 0 <= t <= d_e d). { unfold t, um. destruct (Req_EM_T ml 0); [lra|]. destruct (Rlt_dec ml 1); [destruct (Rlt_dec (d_u d) ml); lra | lra]. }
  assert (MT : mass (spherical_one (d_e d) um (d_r d) (d_phi d)) = t).
  { eapply signed_root_unique; [apply mass_root|]. replace (mink _ _) with (t * t). 2: { unfold mink. change (en (spherical_one (d_e d) um (d_r d) (d_phi d))) with (d_e d). unfold p_sq in PS. lra. }
    split; [rewrite Rabs_pos_eq; nra | nra]. }
  split; [reflexivity|]. split; [cbn; lra|]. split; [rewrite PS; cbn; nra|]. rewrite MT. unfold t, um.
  split; [|split; [|split]].
  - destruct (Req_EM_T ml 0); [right; reflexivity|]. destruct (Rlt_dec ml 1); [destruct (Rlt_dec (d_u d) ml); auto | auto].
  - intros ->. destruct (Req_EM_T 0 0); [reflexivity|contradiction].
  - intros ->. destruct (Req_EM_T 1 0); [lra|]. destruct (Rlt_dec 1 1); [lra|reflexivity].
  - intros H. destruct (Req_EM_T ml 0); [lra|]. destruct (Rlt_dec ml 1); [|lra]. destruct (Rlt_dec (d_u d) ml); reflexivity.
Qed.
Theorem C78_range : forall massless ds, ~ (0 <= massless <= 1) -> from_spherical_uniform massless ds = Err ValueError.
Proof. intros ml ds H. unfold from_spherical_uniform. destruct (Rle_dec 0 ml); [|reflexivity]. destruct (Rle_dec ml 1); [lra|reflexivity]. Qed.

Theorem C79_lower_hemisphere_refuted : forall massless ds l,
  (forall d, In d ds -> 0 <= d_m d <= d_e d /\ 0 <= d_r d <= 1) ->
  from_spherical_uniform massless ds = Ok l -> forall p, In p l -> 0 <= pz p.
Proof.
  intros ml ds l HD H p Hp. unfold from_spherical_uniform in H. destruct (Rle_dec 0 ml); [|discriminate]. destruct (Rle_dec ml 1); [|discriminate]. injection H as <-.
  apply in_map_iff in Hp as (d & <- & Hd). destruct (HD d Hd) as (HM & HR). unfold spherical_one. cbn [pz].
  apply Rmult_le_pos.
  - assert (0 <= root_diff_two_squares (d_e d) (d_m d)).
    { destruct (root_diff_spec (d_e d) (d_m d)) as (A & B). unfold root_diff_two_squares, copysign. rewrite !Rabs_pos_eq by lra. destruct (Rlt_dec (d_e d - d_m d) 0); [lra|]. apply Rmult_le_pos; [apply Rabs_pos | apply sqrt_pos]. }
    destruct (Req_EM_T ml 0); [assumption|]. destruct (Rlt_dec ml 1); [destruct (Rlt_dec (d_u d) ml); [lra|assumption] | lra].
  - rewrite sin_acos by lra. apply sqrt_pos.
Qed.
(** Every direction of the upper hemisphere is reached. *)
Theorem C79_upper_hemisphere_partial : forall x y z, x * x + y * y + z * z = 1 -> 0 <= z ->
  exists d, 0 <= d_r d <= 1 /\ -PI < d_phi d <= PI /\ from_spherical_uniform 1 [Draw 1 0 0 (d_r d) (d_phi d)] = Ok [Mom x y z 1].
Proof.
  intros x y z H Hz. set (rho := sqrt (x * x + y * y)). assert (R0 : 0 <= rho) by apply sqrt_pos. assert (RR : rho * rho = x * x + y * y) by (apply sqrt_sqrt; nra).
  assert (R1 : rho <= 1) by nra. exists (Draw 1 0 0 ((1 - rho) / 2) (atan2 y x)). cbn [d_r d_phi]. split; [lra|]. split; [apply atan2_bound|].
  unfold from_spherical_uniform. destruct (Rle_dec 0 1); [|lra]. destruct (Rle_dec 1 1); [|lra]. cbn [map d_e d_r d_phi d_u d_m]. destruct (Req_EM_T 1 0); [lra|]. destruct (Rlt_dec 1 1); [lra|].
  unfold spherical_one. replace (1 - 2 * ((1 - rho) / 2)) with rho by lra. rewrite cos_acos, sin_acos by lra. destruct (atan2_spec y x) as (_ & A & B). fold rho in A, B.
  do 2 f_equal. f_equal; [rewrite A at 2; ring | rewrite B at 2; ring |]. rewrite Rmult_1_l. unfold Rsqr. rewrite RR. apply Rsqr_inj; [apply sqrt_pos | exact Hz |]. rewrite Rsqr_sqrt by nra. unfold Rsqr. lra.
Qed.
Example C78_demo : let d := Draw 2 1 0 (1 / 4) 0 in 0 <= d_e d <= 3 /\ 0 <= d_m d <= d_e d /\ 0 <= d_r d <= 1.
Proof. cbn. lra. Qed.

(** ** C80 caches *)
Definition value (a : attr) (p : mom) : ext :=
  match a with
  | AX => Fin (px p) | AY => Fin (py p) | AZ => Fin (pz p) | AE => Fin (en p)
  | APt => Fin (pt p) | AEta => eta p | ARap => rapidity ZERO_TOL p | APhi => phi p
  | ATheta => Fin (theta p) | AMass => Fin (mass p) | AMassT => Fin (mass_t p)
  end.
(** What is observed along a history: attribute, returned value, components at that moment. *)
Fixpoint observe (h : list op) (o : obj) : list (attr * res (list ext) * list mom) :=
  match h with
  | [] => []
  | c :: r => let '(v, o') := do_op c o in
              match v with Some (a, x) => (a, x, o_data o) :: observe r o' | None => observe r o' end
  end.
(** Since the last copy, no write follows a read. *)
Fixpoint tidy (seen : bool) (h : list op) : bool :=
  match h with
  | [] => true
  | Read _ :: r => tidy true r
  | Assign _ :: r => (negb seen && tidy seen r)%bool
  | Copy :: r => tidy false r
  end.
Definition okc {A} (c : option A) (v : A) : Prop := c = None \/ c = Some v.
Definition consistent (o : obj) : Prop :=
  okc (c_zt o) (map (fun p => (pz p, pt p)) (o_data o)) /\ okc (c_mag o) (map spatial_mag (o_data o)) /\
  okc (c_eta o) (map (value AEta) (o_data o)) /\ okc (c_rap o) (map (value ARap) (o_data o)) /\ okc (c_phi o) (map (value APhi) (o_data o)) /\
  okc (c_theta o) (map (value ATheta) (o_data o)) /\ okc (c_mass o) (map (value AMass) (o_data o)) /\ okc (c_mass_t o) (map (value AMassT) (o_data o)).

Lemma get_zt_ok o : consistent o -> exists o1, get_zt o = (map (fun p => (pz p, pt p)) (o_data o), o1) /\ consistent o1 /\ o_data o1 = o_data o.
Proof.
  intros C. unfold get_zt. pose proof C as ([E|E] & R); rewrite E; eexists; (split; [reflexivity|]).
  - split; [|reflexivity]. split; [right; reflexivity|exact R].
  - split; [exact C|reflexivity].
Qed.
Lemma get_mag_ok o : consistent o -> exists o1, get_mag o = (map spatial_mag (o_data o), o1) /\ consistent o1 /\ o_data o1 = o_data o.
Proof.
  intros C. unfold get_mag. destruct (proj1 (proj2 C)) as [E|E]; rewrite E.
  - destruct (get_zt_ok o C) as (o1 & E1 & C1 & D1). rewrite E1, map_map.
    change (map (fun x => mag2 (pz x, pt x)) (o_data o)) with (map spatial_mag (o_data o)). eexists. split; [reflexivity|]. cbn [o_data]. split; [|exact D1].
    destruct C1 as (A1 & _ & A3). split; [exact A1|]. split; [right; cbn; rewrite D1; reflexivity|exact A3].
  - eexists. split; [reflexivity|]. split; [exact C|reflexivity].
Qed.
Lemma bcast_map {A B D E} (f : B -> D -> E) (g : A -> B) (h : A -> D) l : bcast f (map g l) (map h l) = Ok (map (fun x => f (g x) (h x)) l).
Proof.
  unfold bcast. rewrite !map_length, Nat.eqb_refl. f_equal. induction l as [|x l IH]; cbn; [reflexivity|rewrite IH; reflexivity].
Qed.
Ltac close_read D1 C1 :=
  eexists; split; [reflexivity|]; cbn [o_data]; split; [|first [exact D1 | reflexivity]];
  destruct C1 as (A1 & A2 & A3 & A4 & A5 & A6 & A7 & A8); rewrite ?D1 in *; unfold consistent; cbn [o_data c_zt c_mag c_eta c_rap c_phi c_theta c_mass c_mass_t]; rewrite ?D1;
  repeat (split; [first [assumption | right; reflexivity]|]); first [assumption | right; reflexivity].
Lemma read_ok a o : consistent o -> exists o', read a o = (Ok (map (value a) (o_data o)), o') /\ consistent o' /\ o_data o' = o_data o.
Proof.
  intros C. destruct a; cbn [read]; try (eexists; split; [reflexivity|split; [exact C|reflexivity]]).
  - destruct (get_zt_ok o C) as (o1 & E1 & C1 & D1). rewrite E1, map_map. exists o1. auto.
  - pose proof C as (_ & _ & [E|E] & _); rewrite E; [|exists o; auto]. destruct (get_mag_ok o C) as (o1 & E1 & C1 & D1). rewrite E1, D1, bcast_map.
    close_read D1 C1.
  - pose proof C as (A1 & A2 & A3 & [E|E] & A5); rewrite E; [|exists o; auto]. eexists. split; [reflexivity|]. cbn [o_data]. split; [|reflexivity]. split; [exact A1|]. split; [exact A2|]. split; [exact A3|]. split; [right; reflexivity|exact A5].
  - pose proof C as (_ & _ & _ & _ & [E|E] & _); rewrite E; [|exists o; auto]. destruct (get_zt_ok o C) as (o1 & E1 & C1 & D1). rewrite E1, D1. rewrite !map_map, !map_length, Nat.eqb_refl. cbn [snd].
    set (inv := fun x => if Rle_dec (Rabs (pt x)) ZERO_TOL then true else false).
    assert (EV : (if existsb (fun b : bool => b) (map inv (o_data o)) then Ok (map2 (fun (b : bool) (x : ext) => if b then NaN else x) (map inv (o_data o)) (map (fun p => Fin (atan2 (py p) (px p))) (o_data o))) else Ok (map (fun p => Fin (atan2 (py p) (px p))) (o_data o))) = Ok (map (value APhi) (o_data o))).
    { destruct (existsb _ _) eqn:EX.
      - f_equal. clear. induction (o_data o) as [|p l IH]; cbn; [reflexivity|]. rewrite IH. f_equal. unfold inv, phi. destruct (Rle_dec _ _); reflexivity.
      - f_equal. apply map_ext_in. intros p Hp. cbn. unfold phi. destruct (Rle_dec (Rabs (pt p)) ZERO_TOL) as [L|L]; [|reflexivity]. exfalso. assert (X : existsb (fun b : bool => b) (map inv (o_data o)) = true); [|congruence].
        apply existsb_exists. exists true. split; [|reflexivity]. apply in_map_iff. exists p. split; [|exact Hp]. unfold inv. destruct (Rle_dec _ _); [reflexivity|contradiction]. }
    rewrite EV. close_read D1 C1.
  - pose proof C as (_ & _ & _ & _ & _ & [E|E] & _); rewrite E; [|exists o; auto]. destruct (get_zt_ok o C) as (o1 & E1 & C1 & D1). rewrite E1, map_map.
    close_read D1 C1.
  - pose proof C as (_ & _ & _ & _ & _ & _ & [E|E] & _); rewrite E; [|exists o; auto]. destruct (get_mag_ok o C) as (o1 & E1 & C1 & D1). rewrite E1, D1, bcast_map.
    close_read D1 C1.
  - pose proof C as (A1 & A2 & A3 & A4 & A5 & A6 & A7 & [E|E]); rewrite E; [|exists o; auto]. eexists. split; [reflexivity|]. cbn [o_data]. split; [|reflexivity]. repeat (split; [assumption|]). right. reflexivity.
Qed.
Lemma fresh_ok d : consistent (fresh d).
Proof. repeat split; left; reflexivity. Qed.

Theorem C80_fresh_reads_partial : forall h d a v d', tidy false h = true -> In (a, v, d') (observe h (fresh d)) -> v = Ok (map (value a) d').
Proof.
  assert (G : forall h seen o a v d', tidy seen h = true -> consistent o -> (seen = false -> o = fresh (o_data o)) -> In (a, v, d') (observe h o) -> v = Ok (map (value a) d')).
  { induction h as [|c h IH]; intros seen o a v d' HT HC HF HI; [destruct HI|]. destruct c as [b|e|]; cbn [observe do_op tidy] in *.
    - destruct (read_ok b o HC) as (o' & E & C' & D'). rewrite E in HI. destruct HI as [HI|HI]; [injection HI as <- <- <-; reflexivity|]. eapply IH; eauto. discriminate.
    - apply Bool.andb_true_iff in HT as (HS & HT). destruct seen; [discriminate|]. rewrite (HF eq_refl) in HI. change (assign e (fresh (o_data o))) with (fresh e) in HI.
      apply (IH false (fresh e) a v d' HT (fresh_ok e) (fun _ => eq_refl) HI).
    - apply (IH false (fresh (o_data o)) a v d' HT (fresh_ok _) (fun _ => eq_refl) HI). }
  intros h d a v d' HT HI. exact (G h false (fresh d) a v d' HT (fresh_ok d) (fun _ => eq_refl) HI).
Qed.
Example C80_demo : tidy false [Assign [Mom 1 2 3 4]; Read AEta; Read APhi; Copy; Assign [Mom 0 1 0 2]; Read AMass] = true.
Proof. reflexivity. Qed.
Theorem C80_stale_refuted : exists h d v d', In (AMassT, v, d') (observe h (fresh d)) /\ v <> Ok (map (value AMassT) d') /\
  In (APt, v, d') (observe [Read APt; Assign [Mom 0 0 0 3]; Read APt] (fresh [Mom 0 1 0 1])).
Proof.
  assert (M1 : mass_t (Mom 0 1 0 1) = 1) by (eapply signed_root_unique; [apply root_diff_spec|]; cbn; replace (1 * 1 - 0 * 0) with 1 by ring; split; [rewrite Rabs_R1|]; lra).
  assert (M3 : mass_t (Mom 0 0 0 3) = 3) by (eapply signed_root_unique; [apply root_diff_spec|]; cbn; replace (3 * 3 - 0 * 0) with 9 by ring; split; [rewrite Rabs_pos_eq; lra|lra]).
  assert (P1 : pt (Mom 0 1 0 1) = 1) by (unfold pt; cbn; replace (0 * 0 + 1 * 1) with 1 by ring; apply sqrt_1).
  exists [Read AMassT; Assign [Mom 0 0 0 3]; Read AMassT], [Mom 0 1 0 1], (Ok [Fin 1]), [Mom 0 0 0 3]. split; [|split].
  - right. left. cbn. rewrite M1. reflexivity.
  - cbn. rewrite M3. intros E. injection E as E. lra.
  - right. left. cbn. rewrite P1. reflexivity.
Qed.

(** Once the coordinates have been cached, momenta assigned in another number make further reads raise. *)
Theorem C80_resized_refuted : forall d d' o o', length d <> length d' -> length d <> 1%nat -> length d' <> 1%nat ->
  read APt (fresh d) = (Ok (map (fun p => Fin (pt p)) d), o) -> o' = assign d' o ->
  fst (read AEta o') = Err ValueError /\ fst (read AMass o') = Err ValueError /\
  ((exists p, In p d /\ pt p <= ZERO_TOL) -> fst (read APhi o') = Err IndexError).
Proof.
  intros d d' o o' HL H1 H2 HR ->. cbn in HR. injection HR as _ <-. unfold assign. cbn.
  set (m := map mag2 (map (fun p => (pz p, pt p)) d)). assert (LM : length m = length d) by (unfold m; rewrite !map_length; reflexivity).
  assert (B : forall (A C : Type) (f : R -> R -> C) (a : list R), length a = length d' -> bcast f a m = Err ValueError).
  { intros A C f a LA. unfold bcast. rewrite LA, LM. destruct (Nat.eqb_spec (length d') (length d)) as [E|_]; [congruence|].
    destruct a as [|x [|x' a]]; [| cbn in LA; congruence |]; (destruct m as [|y [|y' m']]; [reflexivity | cbn in LM; congruence | reflexivity]). }
  split; [|split].
  - rewrite (B R ext) by apply map_length. reflexivity.
  - rewrite (B R ext) by apply map_length. reflexivity.
  - intros (p & Hp & Lp). rewrite !map_map, !map_length. cbn [snd].
    assert (EX : existsb (fun b : bool => b) (map (fun x => if Rle_dec (Rabs (pt x)) ZERO_TOL then true else false) d) = true).
    { apply existsb_exists. exists true. split; [|reflexivity]. apply in_map_iff. exists p. split; [|exact Hp]. rewrite Rabs_pos_eq by apply pt_ge. destruct (Rle_dec (pt p) ZERO_TOL); [reflexivity|contradiction]. }
    rewrite EX. destruct (Nat.eqb_spec (length d) (length d')); [contradiction|]. reflexivity.
Qed.
Example C80_resized_demo : let d := [Mom 0 0 1 1; Mom 3 4 0 9] in let d' := [Mom 3 4 0 9; Mom 3 4 0 9; Mom 3 4 0 9] in
  (exists o, read APt (fresh d) = (Ok (map (fun p => Fin (pt p)) d), o)) /\ length d <> length d' /\ exists p, In p d /\ pt p <= ZERO_TOL.
Proof.
  split; [eexists; reflexivity|]. split; [discriminate|]. exists (Mom 0 0 1 1). split; [left; reflexivity|]. unfold pt. cbn [px py]. replace (0 * 0 + 0 * 0) with 0 by ring. rewrite sqrt_0. unfold ZERO_TOL. lra.
Qed.

(** ** C53 centroid_prune *)
(** Particle [p] is within [radius] of the point (e, f) of the pseudorapidity-azimuth plane. *)
Definition within (p : mom) (e f radius : R) : Prop :=
  0 < pt_sq p /\ exists g, -PI < g <= PI /\ (forall a, azimuth_of (px p) (py p) a -> same_angle g (a - f)) /\
    sqrt ((pseudo_rap p - e) * (pseudo_rap p - e) + g * g) < radius.

Lemma eta_beam p : ~ 0 < pt_sq p -> eta p = NaN \/ eta p = PInf \/ eta p = NInf.
Proof.
  intros H. unfold eta. destruct (Req_EM_T (spatial_mag p) 0) as [|N]; [auto|]. right.
  assert (pt_sq p = 0) by (unfold pt_sq in *; nra). assert (E : spatial_mag p = Rabs (pz p)). { rewrite mag_eq. unfold p_sq, pt_sq in *. rewrite <- sqrt_Rsqr_abs. f_equal. unfold Rsqr. lra. }
  rewrite E in *. assert (pz p <> 0) by (intros Z; apply N; rewrite Z; apply Rabs_R0). destruct (Req_EM_T _ 1) as [|N1]; [auto|]. destruct (Req_EM_T _ (-1)) as [|N2]; [auto|]. exfalso.
  destruct (Rle_dec 0 (pz p)); [apply N1; rewrite Rabs_pos_eq by lra; field; auto | apply N2; rewrite Rabs_left by lra; field; auto].
Qed.
Lemma prune_within e f radius p : below (prune_dist (Fin e) (Fin f) p) radius = true <-> within p e f radius.
Proof.
  unfold prune_dist, within. destruct (Rlt_dec 0 (pt_sq p)) as [HP|HP].
  - rewrite (eta_fin p HP). cbn [esub eopp eadd ehypot below]. set (g := atan2 _ _).
    assert (SG : forall a, azimuth_of (px p) (py p) a -> same_angle g (a - f)).
    { intros a Ha. destruct Ha as (_ & A1 & A2). fold (pt_sq p) in A1, A2. set (u := sqrt (pt_sq p)) in *. assert (0 < u) by (apply sqrt_lt_R0; exact HP).
      unfold g. set (dx := px p * cos f + py p * sin f). set (dy := py p * cos f - px p * sin f). destruct (atan2_spec dy dx) as (_ & D1 & D2).
      assert (E : dx * dx + dy * dy = pt_sq p). { unfold dx, dy, pt_sq. pose proof (sin2_cos2 f) as SC. unfold Rsqr in SC. transitivity ((px p * px p + py p * py p) * (sin f * sin f + cos f * cos f)); [ring|rewrite SC; ring]. }
      rewrite E in D1, D2. fold u in D1, D2. apply same_angle_trig; apply (Rmult_eq_reg_l u); try lra; rewrite <- ?D1, <- ?D2; unfold dx, dy.
      - rewrite cos_minus. rewrite A1, A2 at 1. ring.
      - rewrite sin_minus. rewrite A1, A2 at 1. ring. }
    split.
    + intros H. split; [exact HP|]. exists g. split; [apply atan2_bound|]. split; [exact SG|]. destruct (Rlt_dec _ radius); [assumption|discriminate].
    + intros (_ & g' & B & S & L). assert (g' = g).
      { destruct (S _ (atan2_spec (py p) (px p))) as (k & Ek). destruct (SG _ (atan2_spec (py p) (px p))) as (j & Ej). unfold g in *.
        pose proof (trig_period (atan2 (py p) (px p) - f) k) as (T1 & T2). pose proof (trig_period (atan2 (py p) (px p) - f) j) as (T3 & T4).
        apply angle_unique; [exact B | apply atan2_bound | rewrite Ek, T1, Ej, T3; reflexivity | rewrite Ek, T2, Ej, T4; reflexivity]. }
      subst g'. destruct (Rlt_dec _ radius) as [|NL]; [reflexivity|]. exfalso. apply NL. exact L.
  - split; [|tauto]. destruct (eta_beam p HP) as [->|[->| ->]]; cbn; discriminate.
Qed.
Lemma prune_nan d p radius : d = NaN \/ d = PInf \/ d = NInf -> forall c, below (prune_dist c d p) radius = false.
Proof. intros H c. unfold prune_dist. destruct H as [->|[->| ->]]; destruct (esub (eta p) c); reflexivity. Qed.

Lemma scatter_spec : forall m vals i, length vals = count_true m ->
  nth_error (scatter m vals) i = match nth_error m i with
    | Some true => nth_error vals (length (filter (fun b => b) (firstn i m))) | Some false => Some false | None => None end.
Proof.
  induction m as [|b m IH]; intros vals i HL; [destruct i; reflexivity|]. unfold count_true in *. destruct b; cbn in HL.
  - destruct vals as [|v vs]; [discriminate|]. injection HL as HL. destruct i; [reflexivity|]. cbn. apply IH, HL.
  - destruct i; [reflexivity|]. cbn. apply IH, HL.
Qed.
Lemma scatter_length m vals : length (scatter m vals) = length m.
Proof. revert vals. induction m as [|[|] m IH]; intros vals; cbn; [reflexivity| |rewrite IH; reflexivity]. destruct vals; cbn; rewrite IH; reflexivity. Qed.
Lemma scatter_compress (f : mom -> bool) : forall m l, length m = length l ->
  scatter m (map f (compress m l)) = map2 (fun (b : bool) p => (b && f p)%bool) m l.
Proof. induction m as [|[|] m IH]; intros [|p l] H; try discriminate; cbn in *; try reflexivity; rewrite IH by lia; reflexivity. Qed.

Theorem C53_centroid_prune_centre : forall l radius e f, exists out,
  centroid_prune l radius None (Some (Fin e, Fin f)) = Ok out /\ length out = length l /\
  forall i p, nth_error l i = Some p -> (nth_error out i = Some true <-> within p e f radius).
Proof.
  intros l radius e f. unfold centroid_prune. cbn [bind]. eexists. split; [reflexivity|]. split; [apply map_length|].
  intros i p Hp. rewrite nth_error_map', Hp. cbn [option_map]. rewrite <- prune_within. split; [intros E; injection E; auto | intros ->; reflexivity].
Qed.
Theorem C53_centroid_prune_mask : forall l radius m e f, length m = length l -> exists out,
  centroid_prune l radius (Some m) (Some (Fin e, Fin f)) = Ok out /\ length out = length m /\
  forall i p, nth_error l i = Some p -> (nth_error out i = Some true <-> nth_error m i = Some true /\ within p e f radius).
Proof.
  intros l radius m e f HL. unfold centroid_prune. rewrite getkey_mask by exact HL. cbn [bind]. eexists. split; [reflexivity|]. split; [apply scatter_length|].
  intros i p Hp. rewrite scatter_compress by exact HL. rewrite map2_nth, Hp. destruct (nth_error m i) as [b|] eqn:Eb; [|apply nth_error_None in Eb; assert (i < length l)%nat by (apply nth_error_Some; congruence); lia].
  rewrite <- prune_within. split.
  - intros E. injection E as E. apply Bool.andb_true_iff in E as (-> & E). split; [reflexivity|exact E].
  - intros (E & W). injection E as ->. rewrite W. reflexivity.
Qed.
(** Default centre: the coordinates of the summed momentum of the (masked) particles. *)
Theorem C53_centroid_prune_default : forall l radius mask sel, getkey l (match mask with Some m => KMask m | None => KMask (map (fun _ => true) l) end) = Ok sel ->
  let T := msum sel in
  (ZERO_TOL < pt T -> exists f, azimuth_of (px T) (py T) f /\ centroid_prune l radius mask None = centroid_prune l radius mask (Some (Fin (pseudo_rap T), Fin f))) /\
  (pt T <= ZERO_TOL -> exists out, centroid_prune l radius mask None = Ok out /\ forall b, In b out -> b = false).
Proof.
  intros l radius mask sel HS T.
  assert (SEL : (match mask with None => Ok l | Some m => getkey l (KMask m) end) = Ok sel).
  { destruct mask as [m|]; [exact HS|]. rewrite getkey_mask in HS by apply map_length. rewrite <- HS. f_equal. clear. induction l as [|p l IH]; cbn; [reflexivity | rewrite <- IH; reflexivity]. }
  unfold centroid_prune. rewrite SEL. cbn [bind]. unfold resultant_coords, resultant_rap, phi. fold T. split.
  - intros HT. exists (atan2 (py T) (px T)). split; [apply atan2_spec|]. destruct (Rle_dec (Rabs (pt T)) ZERO_TOL) as [C|_]; [rewrite Rabs_pos_eq in C by apply pt_ge; lra|].
    rewrite eta_fin; [reflexivity|]. rewrite <- pt_sqr. unfold ZERO_TOL in HT. nra.
  - intros HT. destruct (Rle_dec (Rabs (pt T)) ZERO_TOL) as [_|C]; [|rewrite Rabs_pos_eq in C by apply pt_ge; lra]. eexists. split; [reflexivity|].
    assert (EF : map (fun p => below (prune_dist (eta T) NaN p) radius) sel = map (fun _ => false) sel) by (apply map_ext; intros p; apply prune_nan; auto).
    rewrite EF. destruct mask as [m|]; [|intros b Hb; apply in_map_iff in Hb as (x & <- & _); reflexivity]. clear. revert m. generalize (map (fun _ : mom => false) sel) (fun b Hb => proj1 (in_map_iff (fun _ : mom => false) sel b) Hb). intros v Hv.
    assert (HV : forall b, In b v -> b = false) by (intros b Hb; destruct (Hv b Hb) as (x & <- & _); reflexivity). clear Hv. intros m. revert v HV.
    induction m as [|[|] m IH]; intros v HV b Hb; [destruct Hb| |].
    + destruct v as [|x v]; destruct Hb as [<-|Hb]; try reflexivity; [eapply IH; [|exact Hb]; intros y []|apply HV; left; reflexivity|eapply IH; [|exact Hb]; intros y Hy; apply HV; right; exact Hy].
    + destruct Hb as [<-|Hb]; [reflexivity|]. eapply IH; eauto.
Qed.
Example C53_demo : within (Mom 1 0 0 2) 0 0 1 /\ ~ within (Mom (-1) 0 0 2) 0 0 1.
Proof.
  assert (Q0 : forall x, x * x = 1 -> pseudo_rap (Mom x 0 0 2) = 0). { intros x Hx. unfold pseudo_rap, p_sq; cbn. replace (x * x + 0 * 0 + 0 * 0) with 1 by lra. rewrite sqrt_1. replace ((1 + 0) / (1 - 0)) with 1 by field. rewrite ln_1. ring. }
  rewrite <- !prune_within. unfold prune_dist. rewrite !eta_fin by (unfold pt_sq; cbn; lra). rewrite !Q0 by ring. rewrite cos_0, sin_0. cbn.
  replace (0 * 1 - 1 * 0) with 0 by ring. replace (1 * 1 + 0 * 0) with 1 by ring. replace (0 * 1 - -1 * 0) with 0 by ring. replace (-1 * 1 + 0 * 0) with (-1) by ring.
  rewrite atan2_0_nonneg by lra. replace (0 + - 0) with 0 by ring. replace (0 * 0 + 0 * 0) with 0 by ring. rewrite sqrt_0. split; [destruct (Rlt_dec 0 1); [reflexivity|lra]|].
  assert (E : atan2 0 (-1) = PI). { unfold atan2. destruct (Rlt_dec 0 (-1)); [lra|]. destruct (Rlt_dec (-1) 0); [|lra]. destruct (Rle_dec 0 0); [|lra]. unfold Rdiv. rewrite Rmult_0_l, atan_0. ring. }
  rewrite E. replace (0 * 0 + PI * PI) with (PI * PI) by ring. pose proof PI_RGT_0. pose proof PI2_1. rewrite sqrt_square by lra. destruct (Rlt_dec PI 1); [|discriminate]. unfold PI in *. lra.
Qed.

Print Assumptions C68_combined_mass.
Print Assumptions C68_weighted.
Print Assumptions C93_flat_weights_refuted.
Print Assumptions C93_flat_weights_partial.
Print Assumptions C69_aggregate.
Print Assumptions C69_wrong_length.
Print Assumptions C77_rapidity_centroid.
Print Assumptions C77_azimuth_centroid.
Print Assumptions C94_centroid_rotation_refuted.
Print Assumptions C94_centroid_rotation_partial.
Print Assumptions C78_spherical.
Print Assumptions C78_range.
Print Assumptions C79_lower_hemisphere_refuted.
Print Assumptions C79_upper_hemisphere_partial.
Print Assumptions C80_fresh_reads_partial.
Print Assumptions C80_stale_refuted.
Print Assumptions C53_centroid_prune_centre.
Print Assumptions C53_centroid_prune_mask.
Print Assumptions C53_centroid_prune_default.

Print Assumptions C68_table_rows.
Print Assumptions C80_resized_refuted.
