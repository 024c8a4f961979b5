(** C64 - C67, C76: distances, parallel schedules, thread setting, clustering coefficients. *)
From Verif Require Import Prelude Keys SpecReal SpecDist RealBase Kinem KinemProofs Par DeltaR DeltaRProofs P_Kinem.
Open Scope R_scope.

Definition rap_of (pseudo : bool) : mom -> ext := if pseudo then eta else rapidity ZERO_TOL.

Lemma call_result same pseudo l r M : (same = true -> r = l) -> delta_R_call same pseudo l r M -> M = delta_R (rap_of pseudo) l r.
Proof.
  intros HS H. unfold delta_R_call in H. fold (rap_of pseudo) in H. destruct same.
  - destruct H as (m0 & m & HR & ->). rewrite (HS eq_refl). apply (delta_R_sym_result _ _ _ _ HR).
  - destruct H as (m0 & m & HR & ->). apply (delta_R_loop_result _ _ _ _ _ HR).
Qed.
Lemma call_exists same pseudo l r : exists M, delta_R_call same pseudo l r M.
Proof.
  unfold delta_R_call. destruct same.
  - destruct (runs_exists _ (delta_R_sym_loop (rap_of pseudo) l) (fun _ => Fin 0) (le_n _)) as (m & H). eexists. exists (fun _ => Fin 0), m. split; [exact H|reflexivity].
  - destruct (runs_exists _ (delta_R_loop (rap_of pseudo) l r) (fun _ => Fin 0) (le_n _)) as (m & H). eexists. exists (fun _ => Fin 0), m. split; [exact H|reflexivity].
Qed.
Lemma delta_R_at rap l r i j : at2 (delta_R rap l r) i j = match nth_error l i, nth_error r j with Some p, Some q => Some (delta_entry rap p q) | _, _ => None end.
Proof.
  unfold at2, delta_R. rewrite nth_error_map'. destruct (nth_error l i) as [p|]; [|reflexivity]. cbn. rewrite nth_error_map'. destruct (nth_error r j); reflexivity.
Qed.

(** C65: the special case for the same object and the general case return the same matrix. *)
Theorem C65_same_as_copy : forall pseudo l M M',
  delta_R_call true pseudo l l M -> delta_R_call false pseudo l l M' -> M = M'.
Proof. intros pseudo l M M' H H'. apply call_result in H; auto. apply call_result in H'; auto. congruence. Qed.
Example C65_demo : (exists M, delta_R_call true true [Mom 1 0 0 1; Mom 0 0 1 1; Mom 0 0 2 2; Mom 0 0 (-1) 1] [Mom 1 0 0 1; Mom 0 0 1 1; Mom 0 0 2 2; Mom 0 0 (-1) 1] M) /\
  eta (Mom 0 0 1 1) = PInf.
Proof.
  split; [apply call_exists|]. unfold eta. assert (E : spatial_mag (Mom 0 0 1 1) = 1). { rewrite mag_eq. unfold p_sq; cbn. replace (0 * 0 + 0 * 0 + 1 * 1) with 1 by ring. apply sqrt_1. }
  rewrite E. destruct (Req_EM_T 1 0); [lra|]. cbn. destruct (Req_EM_T (1 / 1) 1); [reflexivity|lra].
Qed.

(** C66: any two schedules, from any two initial (uninitialised) memories, give the same array. *)
Theorem C66_delta_R : forall rap l r m0 m m0' m', runs (delta_R_loop rap l r) m0 m -> runs (delta_R_loop rap l r) m0' m' ->
  read_out (length l) (length r) m = read_out (length l) (length r) m' /\
  forall i j p q, nth_error l i = Some p -> nth_error r j = Some q -> m (i, j) = delta_entry rap p q.
Proof.
  intros rap l r m0 m m0' m' H H'. rewrite (delta_R_loop_result _ _ _ _ _ H'). rewrite <- (delta_R_loop_result _ _ _ _ _ H). split; [reflexivity|].
  intros i j p q Hp Hq. pose proof (f_equal (fun M => at2 M i j) (delta_R_loop_result _ _ _ _ _ H)) as E. cbv beta in E. rewrite delta_R_at, Hp, Hq in E.
  unfold at2, read_out in E. rewrite nth_error_map', seq_nth_error in E. destruct (Nat.ltb_spec i (length l)) as [L|L]; [|apply nth_error_None in L; congruence].
  cbn in E. rewrite nth_error_map', seq_nth_error in E. destruct (Nat.ltb_spec j (length r)) as [L'|L']; [|apply nth_error_None in L'; congruence]. cbn in E. congruence.
Qed.
Theorem C66_delta_R_symmetric : forall rap l m0 m m0' m', runs (delta_R_sym_loop rap l) m0 m -> runs (delta_R_sym_loop rap l) m0' m' ->
  read_out (length l) (length l) m = read_out (length l) (length l) m'.
Proof. intros rap l m0 m m0' m' H H'. rewrite (delta_R_sym_result _ _ _ _ H), (delta_R_sym_result _ _ _ _ H'). reflexivity. Qed.
Theorem C66_clust_coeffs : forall adj m0 m m0' m', runs (clust_loop adj) m0 m -> runs (clust_loop adj) m0' m' ->
  map m (seq 0 (length adj)) = map m' (seq 0 (length adj)).
Proof. intros adj m0 m m0' m' H H'. rewrite (clust_loop_result _ _ _ H), (clust_loop_result _ _ _ H'). reflexivity. Qed.
Theorem C66_schedules_exist : forall rap l r adj m0 n0,
  (exists m, runs (delta_R_loop rap l r) m0 m) /\ (exists m, runs (delta_R_sym_loop rap l) m0 m) /\ (exists m, runs (clust_loop adj) n0 m).
Proof. intros. repeat split; eapply runs_exists; apply le_n. Qed.
(** Disjointness matters: two iterations writing one cell give schedule-dependent results. *)
Example C66_race : let its := [([write 0 0 (Fin 1)], tt); ([write 0 0 (Fin 2)], tt)] in
  exists m m', runs its (fun _ => NaN) m /\ runs its (fun _ => NaN) m' /\ m (0%nat, 0%nat) = Fin 2 /\ m' (0%nat, 0%nat) = Fin 1.
Proof.
  cbv zeta. do 2 eexists. split; [|split; [|split]].
  - eapply (runs_step _ 0%nat); [reflexivity|reflexivity|]. eapply (runs_step _ 1%nat); [reflexivity|reflexivity|]. apply runs_done. intros p [<-|[<-|[]]]; reflexivity.
  - eapply (runs_step _ 1%nat); [reflexivity|reflexivity|]. eapply (runs_step _ 0%nat); [reflexivity|reflexivity|]. apply runs_done. intros p [<-|[<-|[]]]; reflexivity.
  - reflexivity.
  - reflexivity.
Qed.

(** C64 *)
Theorem C64_distance : forall same pseudo l r M i j p q, (same = true -> r = l) -> delta_R_call same pseudo l r M ->
  nth_error l i = Some p -> nth_error r j = Some q -> 0 < pt_sq p -> 0 < pt_sq q ->
  (pseudo = false -> ZERO_TOL < en p - Rabs (pz p) /\ ZERO_TOL < en q - Rabs (pz q)) ->
  let y := fun k => if pseudo then pseudo_rap k else true_rap k in
  exists f, azimuth_gap p q f /\ at2 M i j = Some (Fin (sqrt ((y p - y q) * (y p - y q) + f * f))).
Proof.
  intros same pseudo l r M i j p q HS H Hp Hq PP PQ HR y. apply call_result in H; [|exact HS]. subst M. rewrite delta_R_at, Hp, Hq.
  exists (delta_phi p q). destruct (delta_phi_spec p q PP PQ) as (B & A). split.
  - split; [exact B|]. intros a b Ha Hb. rewrite <- (atan2_unique _ _ _ PP Ha), <- (atan2_unique _ _ _ PQ Hb). exact A.
  - assert (RP : rap_of pseudo p = Fin (y p) /\ rap_of pseudo q = Fin (y q)).
    { unfold rap_of, y. destruct pseudo; [rewrite !eta_fin by assumption; split; reflexivity|]. destruct (HR eq_refl). assert (0 <= ZERO_TOL) by (unfold ZERO_TOL; lra). rewrite !rapidity_fin by assumption. split; reflexivity. }
    destruct RP as (E1 & E2). unfold delta_entry. rewrite E1, E2. reflexivity.
Qed.

Lemma entry_nonneg rap p q : ext_nonneg (delta_entry rap p q).
Proof. unfold delta_entry. destruct (rap p), (rap q); cbn; auto; apply sqrt_pos. Qed.

Theorem C64_metric : forall same pseudo l r M, (same = true -> r = l) -> delta_R_call same pseudo l r M ->
  length M = length l /\ (forall row, In row M -> length row = length r) /\
  (forall i j d, at2 M i j = Some d -> ext_nonneg d) /\
  (forall i j p, nth_error l i = Some p -> nth_error r j = Some p -> at2 M i j = Some (Fin 0)) /\
  (forall same' M', (same' = true -> l = r) -> delta_R_call same' pseudo r l M' -> forall i j, at2 M' j i = at2 M i j).
Proof.
  intros same pseudo l r M HS H. apply call_result in H; [|exact HS]. subst M. repeat split.
  - unfold delta_R. apply map_length.
  - intros row Hr. apply in_map_iff in Hr as (p & <- & _). apply map_length.
  - intros i j d Hd. rewrite delta_R_at in Hd. destruct (nth_error l i), (nth_error r j); try discriminate. injection Hd as <-. apply entry_nonneg.
  - intros i j p Hp Hq. rewrite delta_R_at, Hp, Hq, delta_entry_self. reflexivity.
  - intros same' M' HS' H' i j. apply call_result in H'; [|exact HS']. subst M'. rewrite !delta_R_at. destruct (nth_error l i), (nth_error r j); try reflexivity. f_equal. apply delta_entry_sym.
Qed.

Theorem C64_triangle : forall same1 same2 same3 pseudo l1 l2 l3 M12 M23 M13 i j k p q r,
  (same1 = true -> l2 = l1) -> (same2 = true -> l3 = l2) -> (same3 = true -> l3 = l1) ->
  delta_R_call same1 pseudo l1 l2 M12 -> delta_R_call same2 pseudo l2 l3 M23 -> delta_R_call same3 pseudo l1 l3 M13 ->
  nth_error l1 i = Some p -> nth_error l2 j = Some q -> nth_error l3 k = Some r ->
  0 < pt_sq p -> 0 < pt_sq q -> 0 < pt_sq r -> (pseudo = false -> Rabs (pz p) <= en p /\ Rabs (pz q) <= en q /\ Rabs (pz r) <= en r) ->
  exists a b c, at2 M13 i k = Some a /\ at2 M12 i j = Some b /\ at2 M23 j k = Some c /\ tri_le a b c.
Proof.
  intros s1 s2 s3 pseudo l1 l2 l3 M12 M23 M13 i j k p q r S1 S2 S3 H1 H2 H3 Hp Hq Hr PP PQ PR HE.
  apply call_result in H1; auto. apply call_result in H2; auto. apply call_result in H3; auto. subst. rewrite !delta_R_at, Hp, Hq, Hr.
  do 3 eexists. split; [reflexivity|]. split; [reflexivity|]. split; [reflexivity|].
  assert (NN : forall x, 0 < pt_sq x -> (pseudo = false -> Rabs (pz x) <= en x) -> rap_of pseudo x <> NaN).
  { intros x Px Hx. unfold rap_of. destruct pseudo; [rewrite eta_fin by exact Px; discriminate|]. specialize (Hx eq_refl). assert (0 <= ZERO_TOL) by (unfold ZERO_TOL; lra).
    destruct (Rle_dec (en x - Rabs (pz x)) ZERO_TOL).
    - rewrite rapidity_inf by (rewrite Rabs_pos_eq; lra). destruct (Rlt_dec (pz x) 0); discriminate.
    - rewrite rapidity_fin by lra. discriminate. }
  assert (N1 := NN p PP (fun E => proj1 (HE E))). assert (N2 := NN q PQ (fun E => proj1 (proj2 (HE E)))). assert (N3 := NN r PR (fun E => proj2 (proj2 (HE E)))).
  pose proof (delta_phi_tri p q r PP PQ PR) as T. unfold delta_entry.
  assert (G : forall u v w, Rabs u <= Rabs v + Rabs w ->
    sqrt (u * u + delta_phi p r * delta_phi p r) <= sqrt (v * v + delta_phi p q * delta_phi p q) + sqrt (w * w + delta_phi q r * delta_phi q r)).
  { intros u v w Hu. eapply Rle_trans; [apply hypot_mono with (c := Rabs v + Rabs w) (d := Rabs (delta_phi p q) + Rabs (delta_phi q r)); assumption|].
    eapply Rle_trans; [apply hypot_tri|]. assert (SA : forall x, Rabs x * Rabs x = x * x) by (intros x; rewrite <- Rabs_mult; apply Rabs_pos_eq; nra). rewrite !SA. lra. }
  destruct (rap_of pseudo p) as [yp| | |]; try congruence; destruct (rap_of pseudo q) as [yq| | |]; try congruence; destruct (rap_of pseudo r) as [yr| | |]; try congruence; cbn; auto;
    apply G; rewrite ?Rabs_R0; try lra.
  replace (yp + - yr) with ((yp + - yq) + (yq + - yr)) by ring. apply Rabs_triang.
Qed.

Lemma rotate_entry pseudo a p q : delta_entry (rap_of pseudo) (rotate a p) (rotate a q) = delta_entry (rap_of pseudo) p q.
Proof.
  assert (R : forall x, rap_of pseudo (rotate a x) = rap_of pseudo x).
  { intros x. unfold rap_of. destruct pseudo; [|reflexivity]. unfold eta. replace (spatial_mag (rotate a x)) with (spatial_mag x); [reflexivity|]. unfold spatial_mag. rewrite rotate_pt. reflexivity. }
  unfold delta_entry. rewrite !R. f_equal. unfold delta_phi. cbn. pose proof (sin2_cos2 a) as SC. unfold Rsqr in SC.
  f_equal; match goal with |- _ = ?e => transitivity ((sin a * sin a + cos a * cos a) * e); [ring | rewrite SC; ring] end.
Qed.
Theorem C64_rotation : forall same pseudo a l r l' r' M M', (same = true -> r = l) ->
  shift_phi (Scalar a) l = Ok l' -> shift_phi (Scalar a) r = Ok r' ->
  delta_R_call same pseudo l r M -> delta_R_call same pseudo l' r' M' -> M' = M.
Proof.
  intros same pseudo a l r l' r' M M' HS Hl Hr H H'. assert (HS' : same = true -> r' = l') by (intros E; specialize (HS E); congruence).
  apply call_result in H; auto. apply call_result in H'; auto. subst M M'. unfold shift_phi, spread in Hl, Hr. cbn [bind] in Hl, Hr. rewrite map2_repeat in Hl, Hr. injection Hl as <-. injection Hr as <-.
  unfold delta_R. rewrite map_map. apply map_ext. intros p. rewrite map_map. apply map_ext. intros q. apply rotate_entry.
Qed.
Theorem C64_boost : forall same d l r l' r' M M', (same = true -> r = l) ->
  (forall p, In p l \/ In p r -> ZERO_TOL < en p - Rabs (pz p)) -> (forall p, In p l' \/ In p r' -> ZERO_TOL < en p - Rabs (pz p)) ->
  shift_rapidity (Scalar d) l = Ok l' -> shift_rapidity (Scalar d) r = Ok r' ->
  delta_R_call same false l r M -> delta_R_call same false l' r' M' -> M' = M.
Proof.
  intros same d l r l' r' M M' HS F F' Hl Hr H H'. assert (HS' : same = true -> r' = l') by (intros E; specialize (HS E); congruence).
  apply call_result in H; auto. apply call_result in H'; auto. subst M M'. unfold shift_rapidity, spread in Hl, Hr. cbn [bind] in Hl, Hr. rewrite map2_repeat in Hl, Hr. injection Hl as <-. injection Hr as <-.
  unfold delta_R. rewrite map_map. apply map_ext_in. intros p Hp. rewrite map_map. apply map_ext_in. intros q Hq.
  assert (HZ : 0 <= ZERO_TOL) by (unfold ZERO_TOL; lra).
  assert (R : forall x, In x l \/ In x r -> rap_of false x = Fin (true_rap x) /\ rap_of false (boost d x) = Fin (true_rap x + d)).
  { intros x Hx. unfold rap_of. pose proof (F x Hx) as Fx. assert (Fb : ZERO_TOL < en (boost d x) - Rabs (pz (boost d x))) by (apply F'; destruct Hx as [Hx|Hx]; [left|right]; apply in_map, Hx).
    rewrite !rapidity_fin by assumption. split; [reflexivity|]. f_equal. apply true_rap_boost; [apply boost_boosted|lra]. }
  destruct (R p (or_introl Hp)) as (P1 & P2). destruct (R q (or_intror Hq)) as (Q1 & Q2). unfold delta_entry. rewrite P1, P2, Q1, Q2. cbn. do 3 f_equal. f_equal; ring.
Qed.
Example C64_demo : exists l' M M', shift_rapidity (Scalar 1) [Mom 3 4 0 13; Mom 0 1 0 2] = Ok l' /\ delta_R_call true false [Mom 3 4 0 13; Mom 0 1 0 2] [Mom 3 4 0 13; Mom 0 1 0 2] M /\ delta_R_call true false l' l' M'.
Proof. destruct (call_exists true false [Mom 3 4 0 13; Mom 0 1 0 2] [Mom 3 4 0 13; Mom 0 1 0 2]) as (M & H). eexists. destruct (call_exists true false (map2 boost (repeat 1 2) [Mom 3 4 0 13; Mom 0 1 0 2]) (map2 boost (repeat 1 2) [Mom 3 4 0 13; Mom 0 1 0 2])) as (M' & H'). exists M, M'. split; [reflexivity|]. split; assumption. Qed.
(** The pT > 0 hypothesis of the triangle inequality is needed: a particle at rest is at distance 0
    from two particles of equal rapidity that are back to back. *)
Example C64_no_triangle_at_rest : let rap := rapidity ZERO_TOL in let o := Mom 0 0 0 1 in
  delta_entry rap (Mom 1 0 0 2) o = Fin 0 /\ delta_entry rap o (Mom (-1) 0 0 2) = Fin 0 /\ exists d, delta_entry rap (Mom 1 0 0 2) (Mom (-1) 0 0 2) = Fin d /\ 0 < d.
Proof.
  assert (R0 : forall x e, 1 <= e -> rapidity ZERO_TOL (Mom x 0 0 e) = Fin 0).
  { intros x e He. rewrite rapidity_fin; [| unfold ZERO_TOL; lra | cbn; rewrite Rabs_R0; unfold ZERO_TOL; lra]. f_equal. unfold true_rap; cbn. replace ((e + 0) / (e - 0)) with 1 by (field; lra). rewrite ln_1. ring. }
  cbv zeta. unfold delta_entry. rewrite !R0 by lra. unfold delta_phi. cbn.
  replace (0 * 0 - 1 * 0) with 0 by ring. replace (1 * 0 + 0 * 0) with 0 by ring. replace (0 * -1 - 0 * 0) with 0 by ring. replace (0 * -1 + 0 * 0) with 0 by ring. replace (0 * -1 - 1 * 0) with 0 by ring. replace (1 * -1 + 0 * 0) with (-1) by ring.
  rewrite atan2_0_nonneg by lra. replace (0 + - 0) with 0 by ring. replace (0 * 0 + 0 * 0) with 0 by ring. rewrite sqrt_0. split; [reflexivity|]. split; [reflexivity|].
  eexists. split; [reflexivity|]. assert (E : atan2 0 (-1) = PI). { unfold atan2. destruct (Rlt_dec 0 (-1)); [lra|]. destruct (Rlt_dec (-1) 0); [|lra]. destruct (Rle_dec 0 0); [|lra]. unfold Rdiv. rewrite Rmult_0_l, atan_0. ring. }
  rewrite E. apply sqrt_lt_R0. pose proof PI_RGT_0. nra.
Qed.

(** C67 *)
Theorem C67_thread_scope : forall A maxt n (body : thr A) s, (1 <= s <= maxt)%nat ->
  fst (thread_scope maxt n body s) = s /\
  (forall r, (1 <= n <= maxt)%nat -> snd (body n) = r -> snd (thread_scope maxt n body s) = r) /\
  (~ (1 <= n <= maxt)%nat -> snd (thread_scope maxt n body s) = Err ValueError).
Proof.
  intros A maxt n body s Hs. unfold thread_scope, set_num_threads.
  destruct (Nat.leb_spec 1 n) as [L1|L1], (Nat.leb_spec n maxt) as [L2|L2]; cbn [andb].
  2,3,4: split; [reflexivity|]; split; [intros; lia | reflexivity].
  destruct (body n) as (s1, r). destruct (Nat.leb_spec 1 s), (Nat.leb_spec s maxt); try lia. cbn. split; [reflexivity|]. split; [auto | lia].
Qed.
(** Any nesting, any exception: programs built from arbitrary steps, sequencing, handlers and scopes. *)
Inductive tprog :=
| TStep (r : res nat)
| TSeq (a b : tprog)
| TTry (a b : tprog)
| TScope (n : nat) (a : tprog).
Fixpoint trun (maxt : nat) (p : tprog) : thr nat :=
  match p with
  | TStep r => tret r
  | TSeq a b => tbind (trun maxt a) (fun _ => trun maxt b)
  | TTry a b => fun s => match trun maxt a s with (s', Ok x) => (s', Ok x) | (s', Err _) => trun maxt b s' end
  | TScope n a => thread_scope maxt n (trun maxt a)
  end.
Theorem C67_restored : forall maxt p s, (1 <= s <= maxt)%nat -> fst (trun maxt p s) = s.
Proof.
  intros maxt. induction p as [r|a IHa b IHb|a IHa b IHb|n a IHa]; intros s Hs; cbn [trun].
  - reflexivity.
  - unfold tbind. specialize (IHa s Hs). destruct (trun maxt a s) as (s', [x|e]); cbn in *; subst s'; [apply IHb, Hs | reflexivity].
  - specialize (IHa s Hs). destruct (trun maxt a s) as (s', [x|e]); cbn in *; subst s'; [reflexivity | apply IHb, Hs].
  - apply C67_thread_scope, Hs.
Qed.
Theorem C67_calls : forall A B maxt threads (k : thr A) (k1 : thr A) (k2 : A -> thr B) s, (1 <= s <= maxt)%nat ->
  fst (t_delta_R maxt threads k s) = s /\ fst (t_cluster_coeff maxt threads k1 k2 s) = s.
Proof.
  intros A B maxt threads k k1 k2 s Hs. split; [apply C67_thread_scope, Hs|]. unfold t_cluster_coeff, tbind, t_delta_R.
  pose proof (proj1 (C67_thread_scope A maxt threads k1 s Hs)) as E. destruct (thread_scope maxt threads k1 s) as (s', [x|e]); cbn in *; subst s'; [apply C67_thread_scope, Hs | reflexivity].
Qed.
Example C67_demo : trun 8 (TScope 4 (TSeq (TScope 2 (TStep (Err ValueError))) (TStep (Ok 1%nat)))) 3%nat = (3%nat, Err ValueError)
  /\ trun 8 (TScope 9 (TStep (Ok 1%nat))) 3%nat = (3%nat, Err ValueError).
Proof. split; reflexivity. Qed.

(** C76 *)
Lemma positions_filter m : positions m = filter (fun j => nth j m false) (seq 0 (length m)).
Proof.
  assert (G : forall m k, map fst (filter snd (enum_from k m)) = map (fun j => k + j)%nat (filter (fun j => nth j m false) (seq 0 (length m)))).
  { clear. induction m as [|b m IH]; intros k; [reflexivity|]. cbn [enum_from filter length seq].
    assert (E : filter (fun j => nth j (b :: m) false) (seq 1 (length m)) = map S (filter (fun j => nth j m false) (seq 0 (length m)))).
    { rewrite <- seq_shift. assert (FM : forall (f : nat -> bool) s, filter f (map S s) = map S (filter (fun j => f (S j)) s)) by (intros f s; induction s as [|x s IHs]; [reflexivity|]; cbn; destruct (f (S x)); cbn; rewrite IHs; reflexivity).
      rewrite FM. reflexivity. }
    rewrite E. change (nth 0 (b :: m) false) with b. destruct b; cbn [snd fst map]; rewrite IH, ?map_map.
    - f_equal; [lia|]. apply map_ext. intros; lia.
    - apply map_ext. intros; lia. }
  unfold positions, enumerate. rewrite G. cbn. rewrite map_id. reflexivity.
Qed.

Lemma pairs_bound near nb : NoDup nb -> (length (linked_pairs near nb) <= length nb * (length nb - 1))%nat.
Proof.
  intros ND. unfold linked_pairs.
  assert (G : forall l, incl l nb -> (length (filter (fun ab => (negb (Nat.eqb (fst ab) (snd ab)) && near (fst ab) (snd ab))%bool) (list_prod l nb)) <= length l * (length nb - 1))%nat).
  { induction l as [|a l IH]; intros HI; [cbn; lia|]. cbn [list_prod]. rewrite filter_app, app_length. cbn [length]. rewrite Nat.mul_succ_l.
    assert (Ha : In a nb) by (apply HI; left; reflexivity).
    assert (L : (length (filter (fun ab : nat * nat => (negb (Nat.eqb (fst ab) (snd ab)) && near (fst ab) (snd ab))%bool) (map (fun y => (a, y)) nb)) <= length nb - 1)%nat).
    { clear IH HI. apply in_split in Ha as (u & v & ->). rewrite map_app, filter_app. cbn [map filter fst snd]. rewrite Nat.eqb_refl. cbn [negb andb]. rewrite !app_length. cbn [length].
      assert (FL : forall (f : nat * nat -> bool) l, (length (filter f l) <= length l)%nat) by (intros f l0; induction l0 as [|x l0 IHl]; cbn; [lia | destruct (f x); cbn; lia]).
      pose proof (FL (fun ab : nat * nat => (negb (Nat.eqb (fst ab) (snd ab)) && near (fst ab) (snd ab))%bool) (map (fun y => (a, y)) u)) as L1.
      pose proof (FL (fun ab : nat * nat => (negb (Nat.eqb (fst ab) (snd ab)) && near (fst ab) (snd ab))%bool) (map (fun y => (a, y)) v)) as L2. rewrite map_length in L1, L2. lia. }
    specialize (IH (fun x Hx => HI x (or_intror Hx))). lia. }
  apply G. apply incl_refl.
Qed.

Lemma list_prod_in {A B} (l : list A) (r : list B) x : In x (list_prod l r) -> In (fst x) l /\ In (snd x) r.
Proof. destruct x. intros H. apply in_prod_iff in H. exact H. Qed.

Theorem C76_cluster_coeff : forall pseudo l radius out, cluster_coeff_distbn pseudo l radius out ->
  exists M, delta_R_call true pseudo l l M /\ length out = length l /\
  forall i, (i < length l)%nat -> exists c, nth_error out i = Some c /\ 0 <= c <= 1 /\
    exists near, coefficient (length l) near i c /\
    forall a b, (a < length l)%nat -> (b < length l)%nat -> (near a b = true <-> exists x, at2 M a b = Some (Fin x) /\ x < radius).
Proof.
  intros pseudo l radius out (M & m0 & m & HM & HR & ->). exists M. split; [exact HM|]. split; [rewrite map_length, seq_length; reflexivity|].
  intros i Hi. pose proof (call_result true pseudo l l M (fun _ => eq_refl) HM) as EM.
  assert (LM : length M = length l) by (rewrite EM; unfold delta_R; apply map_length).
  assert (RM : forall a row, nth_error M a = Some row -> length row = length l).
  { intros a row Ha. rewrite EM in Ha. unfold delta_R in Ha. rewrite nth_error_map' in Ha. destruct (nth_error l a); [|discriminate]. injection Ha as <-. apply map_length. }
  set (near := fun a b => match at2 M a b with Some d => elt d radius | None => false end).
  set (adj := radius_adj M radius) in *. assert (LA : length adj = length l) by (unfold adj, radius_adj, enumerate; rewrite map_length, enum_from_length; exact LM).
  assert (ROW : forall a, (a < length l)%nat -> exists row, nth_error adj a = Some row /\ length row = length l /\ forall b, nth b row false = (near a b && negb (Nat.eqb a b))%bool).
  { intros a Ha. unfold adj, radius_adj. destruct (nth_error M a) as [row|] eqn:E; [|apply nth_error_None in E; lia]. rewrite nth_error_map', enumerate_nth, E. cbn.
    eexists. split; [reflexivity|]. split; [unfold enumerate; rewrite map_length, enum_from_length; eauto|]. intros b. unfold near, at2. rewrite E.
    destruct (nth_error row b) as [d|] eqn:Eb.
    - apply nth_error_nth. unfold enumerate. rewrite nth_error_map', enum_from_nth, Eb. reflexivity.
    - rewrite nth_overflow; [reflexivity|]. unfold enumerate. rewrite map_length, enum_from_length. apply nth_error_None, Eb. }
  assert (EO : nth_error (map m (seq 0 (length l))) i = Some (clust_coeff adj i)).
  { pose proof (clust_loop_result _ _ _ HR) as EC. rewrite LA in EC. rewrite EC, nth_error_map', seq_nth_error. destruct (Nat.ltb_spec i (length l)); [reflexivity|lia]. }
  exists (clust_coeff adj i). split; [exact EO|].
  assert (NEAR : forall a b, (a < length l)%nat -> (b < length l)%nat -> (near a b = true <-> exists x, at2 M a b = Some (Fin x) /\ x < radius)).
  { intros a b Ha Hb. unfold near. rewrite EM, delta_R_at. destruct (nth_error l a) as [p|] eqn:Ep; [|apply nth_error_None in Ep; lia]. destruct (nth_error l b) as [q|] eqn:Eq; [|apply nth_error_None in Eq; lia].
    pose proof (entry_nonneg (rap_of pseudo) p q) as NN. destruct (delta_entry (rap_of pseudo) p q) as [x| | |]; try contradiction; cbn [elt].
    - destruct (Rlt_dec x radius) as [L|L]; split; intros H; try discriminate; try reflexivity; [exists x; auto|]. destruct H as (y & E & Hy). injection E as <-. contradiction.
    - split; [discriminate|]. intros (y & E & _). discriminate. }
  assert (GOAL : 0 <= clust_coeff adj i <= 1 /\ coefficient (length l) near i (clust_coeff adj i)); [|destruct GOAL as (G1 & G2); split; [exact G1|]; exists near; split; [exact G2|exact NEAR]].
  assert (NB : positions (nth i adj []) = neighbours (length l) near i).
  { destruct (ROW i Hi) as (row & Hrow & Lrow & Vrow). erewrite nth_error_nth by exact Hrow. rewrite positions_filter, Lrow. unfold neighbours. apply filter_ext. intros j. rewrite Vrow, Bool.andb_comm. reflexivity. }
  unfold coefficient. fold near. cbv zeta. unfold clust_coeff. rewrite NB. set (nb := neighbours (length l) near i).
  assert (ND : NoDup nb) by (apply NoDup_filter, seq_NoDup).
  assert (LP : filter (fun ab : nat * nat => adj_at adj (fst ab) (snd ab)) (list_prod nb nb) = linked_pairs near nb).
  { unfold linked_pairs. apply filter_ext_in. intros (a, b) Hab. apply list_prod_in in Hab as (Ha & _). cbn in *. unfold nb, neighbours in Ha. apply filter_In in Ha as (Ha & _). apply in_seq in Ha.
    destruct (ROW a) as (row & Hrow & _ & Vrow); [lia|]. unfold adj_at. erewrite (nth_error_nth adj) by exact Hrow. rewrite Vrow. apply Bool.andb_comm. }
  rewrite LP. pose proof (pairs_bound near nb ND) as PB. destruct (Nat.ltb_spec (length nb) 2) as [L|L]; [split; [lra|reflexivity]|].
  assert (EK : INR (length nb * (length nb - 1)) = INR (length nb) * (INR (length nb) - 1)) by (rewrite mult_INR, minus_INR by lia; cbn; reflexivity).
  assert (KP : 0 < INR (length nb) * (INR (length nb) - 1)). { assert (2 <= INR (length nb)) by (change 2 with (INR 2); apply le_INR; lia). nra. }
  rewrite EK. apply le_INR in PB. rewrite EK in PB. split; [split|].
  - apply Rmult_le_pos; [apply pos_INR|]. left. apply Rinv_0_lt_compat, KP.
  - apply Rmult_le_reg_r with (INR (length nb) * (INR (length nb) - 1)); [exact KP|]. unfold Rdiv. rewrite Rmult_assoc, Rinv_l by lra. lra.
  - field. split; nra.
Qed.
Example C76_demo : exists out, cluster_coeff_distbn true [Mom 1 0 0 2; Mom 1 1 0 2; Mom 0 1 0 2] 3 out.
Proof.
  destruct (call_exists true true [Mom 1 0 0 2; Mom 1 1 0 2; Mom 0 1 0 2] [Mom 1 0 0 2; Mom 1 1 0 2; Mom 0 1 0 2]) as (M & H).
  destruct (runs_exists _ (clust_loop (radius_adj M 3)) (fun _ => 0) (le_n _)) as (m & HR). eexists. exists M, (fun _ => 0), m. split; [exact H|]. split; [exact HR|reflexivity].
Qed.

Print Assumptions C65_same_as_copy.
Print Assumptions C66_delta_R.
Print Assumptions C66_delta_R_symmetric.
Print Assumptions C66_clust_coeffs.
Print Assumptions C66_schedules_exist.
Print Assumptions C64_distance.
Print Assumptions C64_metric.
Print Assumptions C64_triangle.
Print Assumptions C64_rotation.
Print Assumptions C64_boost.
Print Assumptions C67_thread_scope.
Print Assumptions C67_restored.
Print Assumptions C67_calls.
Print Assumptions C76_cluster_coeff.
