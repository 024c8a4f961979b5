(** Lemmas about the partition model. *)
From Verif Require Import Prelude Dict Keys MaskTypes SpecMask Mask MaskProofs SpecAdj SpecArray SpecPart Arrays ArraysProofs Adjacency Descend DescendProofs P_Descend Hierarchy HierEvent Partition.

Lemma f2_nth {A B} (P : A -> B -> Prop) l r i : Forall2 P l r ->
  (forall a, nth_error l i = Some a -> exists b, nth_error r i = Some b /\ P a b) /\ (forall b, nth_error r i = Some b -> exists a, nth_error l i = Some a /\ P a b).
Proof.
  intros H. pose proof (Forall2_nth_error P l r i H) as E. split; intros x Hx; rewrite Hx in E.
  - destruct (nth_error r i); [eauto|contradiction].
  - destruct (nth_error l i); [eauto|contradiction].
Qed.

(** ** put *)
Lemma positions_cons b m : positions (b :: m) = (if b then [0] else []) ++ map S (positions m).
Proof.
  unfold positions, enumerate. cbn [enum_from].
  assert (E : forall n (l : list bool), map fst (filter (fun p : nat * bool => snd p) (enum_from (S n) l)) = map S (map fst (filter (fun p : nat * bool => snd p) (enum_from n l)))).
  { intros n l. revert n. induction l as [|x r IH]; intros n; cbn [enum_from]; [reflexivity|].
    cbn [filter snd]. destruct x; cbn [map fst]; rewrite IH; reflexivity. }
  cbn [filter snd]. destruct b; cbn [map fst app]; rewrite E; reflexivity.
Qed.

Lemma put_length d m v : length (put d m v) = length d.
Proof.
  revert m v. induction d as [|x d IH]; intros [|[|] m] [|y v]; cbn; auto.
Qed.

Lemma put_false d : forall m v i, nth_error m i = Some false -> nth_error (put d m v) i = nth_error d i.
Proof.
  induction d as [|x d IH]; intros [|[|] m] v [|i] H; cbn in *; try discriminate; auto; destruct v; cbn; auto.
Qed.

Lemma put_true d : forall m v i, length d = length m -> length v = count_true m -> nth_error m i = Some true ->
  exists r, nth_error (positions m) r = Some i /\ nth_error (put d m v) i = nth_error v r.
Proof.
  induction d as [|x d IH]; intros [|b m] v i Ld Lv H; try discriminate; [destruct i; discriminate|].
  rewrite positions_cons. destruct b.
  - destruct v as [|y v]; [discriminate|]. destruct i as [|i].
    + exists 0. split; reflexivity.
    + cbn in H. cbn in Lv. destruct (IH m v i) as (r & Hr & E); [cbn in Ld; lia | unfold count_true; lia | exact H |].
      exists (S r). cbn. rewrite nth_error_map', Hr. auto.
  - destruct i as [|i]; [discriminate|]. cbn in H. destruct (IH m v i) as (r & Hr & E); [cbn in Ld; lia | exact Lv | exact H |].
    exists r. cbn [app]. rewrite nth_error_map', Hr. auto.
Qed.

(** ** argmin *)
Section Argmin.
  Context {D : Type} (lt : D -> D -> bool) (HW : weak_order lt).

  Lemma argmin_from_spec l : forall pre best bd,
    nth_error pre best = Some bd ->
    (forall j x, nth_error pre j = Some x -> lt x bd = false /\ (j < best -> lt bd x = true)) ->
    let a := argmin_from lt best bd (length pre) l in
    exists y, nth_error (pre ++ l) a = Some y /\ forall j x, nth_error (pre ++ l) j = Some x -> lt x y = false /\ (j < a -> lt y x = true).
  Proof using HW.
    destruct HW as (irr & tr & wk).
    induction l as [|x r IH]; intros pre best bd Hb HP; cbn [argmin_from].
    - rewrite app_nil_r. exists bd. auto.
    - replace (pre ++ x :: r) with ((pre ++ [x]) ++ r) by (rewrite <- app_assoc; reflexivity).
      replace (S (length pre)) with (length (pre ++ [x])) by (rewrite app_length; cbn; lia).
      assert (LB : best < length pre) by (apply nth_error_Some; congruence).
      destruct (lt x bd) eqn:E.
      + apply IH; [rewrite nth_error_app2, Nat.sub_diag by lia; reflexivity|].
        intros j z Hj. destruct (Nat.lt_ge_cases j (length pre)) as [G|G].
        * rewrite nth_error_app1 in Hj by lia. destruct (HP j z Hj) as [A B].
          assert (HX : lt x z = true). { destruct (wk x z bd E) as [C|C]; [exact C | congruence]. }
          split; [|auto]. destruct (lt z x) eqn:C; [|reflexivity]. pose proof (tr _ _ _ HX C) as F. rewrite irr in F. discriminate.
        * rewrite nth_error_app2 in Hj by lia. destruct (j - length pre) as [|k] eqn:K; [|destruct k; discriminate].
          injection Hj as <-. split; [apply irr | lia].
      + apply IH; [rewrite nth_error_app1 by lia; exact Hb|].
        intros j z Hj. destruct (Nat.lt_ge_cases j (length pre)) as [G|G].
        * rewrite nth_error_app1 in Hj by lia. apply HP. exact Hj.
        * rewrite nth_error_app2 in Hj by lia. destruct (j - length pre) as [|k] eqn:K; [|destruct k; discriminate].
          injection Hj as <-. split; [exact E | lia].
  Qed.

  Lemma argmin_spec l : l <> [] -> exists a y, argmin lt l = Ok a /\ nth_error l a = Some y /\
    forall j x, nth_error l j = Some x -> lt x y = false /\ (j < a -> lt y x = true).
  Proof using HW.
    destruct l as [|x r]; intros H; [contradiction|]. cbn [argmin].
    destruct (argmin_from_spec r [x] 0 x) as (y & H1 & H2).
    - reflexivity.
    - intros [|[|j]] z Hz; cbn in Hz; try discriminate. injection Hz as <-. split; [apply HW | lia].
    - exists (argmin_from lt 0 x 1 r), y. auto.
  Qed.
End Argmin.

Lemma sorted_nth_mono (m : list bool) : forall j k a b, nth_error (positions m) j = Some a -> nth_error (positions m) k = Some b -> a < b -> j < k.
Proof.
  induction m as [|x m IH]; intros j k a b Hj Hk L; [destruct j; discriminate|].
  rewrite positions_cons in Hj, Hk. destruct x; cbn [app] in *.
  - destruct j as [|j], k as [|k]; cbn in *.
    + injection Hj as <-; injection Hk as <-; lia.
    + lia.
    + injection Hk as <-. lia.
    + rewrite nth_error_map' in Hj, Hk. destruct (nth_error (positions m) j) eqn:E1; [|discriminate]. destruct (nth_error (positions m) k) eqn:E2; [|discriminate].
      cbn in *. injection Hj as <-; injection Hk as <-. enough (j < k) by lia. eapply IH; eauto; lia.
  - rewrite nth_error_map' in Hj, Hk. destruct (nth_error (positions m) j) eqn:E1; [|discriminate]. destruct (nth_error (positions m) k) eqn:E2; [|discriminate].
    cbn in *. injection Hj as <-; injection Hk as <-. eapply IH; eauto; lia.
Qed.

Lemma any_true l : any l = true <-> exists i, nth_error l i = Some true.
Proof.
  unfold any. rewrite existsb_exists. split.
  - intros (x & H & ->). apply In_nth_error in H. exact H.
  - intros (i & H). exists true. split; [eapply nth_error_In; eauto | reflexivity].
Qed.

  (** ** Leafwise relations *)
  Fixpoint lw (R : list bool -> list bool -> Prop) (m m' : mask) : Prop :=
    match m, m' with
    | MArr d, MArr d' => R d d'
    | MGrp a kids, MGrp a' kids' => a = a' /\
        (fix go (l l' : list (string * mask)) : Prop :=
          match l, l' with
          | [], [] => True
          | p :: r, q :: r' => fst p = fst q /\ (if String.eqb (fst p) "latent" then snd p = snd q else lw R (snd p) (snd q)) /\ go r r'
          | _, _ => False
          end) kids kids'
    | _, _ => False
    end.
  Definition lwk R (p q : string * mask) : Prop := fst p = fst q /\ (if String.eqb (fst p) "latent" then snd p = snd q else lw R (snd p) (snd q)).
  Lemma lw_grp R a kids a' kids' : lw R (MGrp a kids) (MGrp a' kids') <-> a = a' /\ Forall2 (lwk R) kids kids'.
  Proof.
    cbn. apply and_iff_compat_l. revert kids'. induction kids as [|p r IH]; intros [|q r'].
    - split; [constructor|exact (fun _ => I)].
    - split; [contradiction|intros H; inversion H].
    - split; [contradiction|intros H; inversion H].
    - rewrite IH. unfold lwk. split; [intros (A & B & C); constructor; auto | intros H; inversion H; subst; tauto].
  Qed.

  Lemma lw_step (R1 R2 : list bool -> list bool -> Prop) f :
    (forall d0 d, R1 d0 d -> exists d', f d = Ok d' /\ R2 d0 d') ->
    forall m0 m, lw R1 m0 m -> exists m', map_leaves f m = Ok m' /\ lw R2 m0 m'.
  Proof.
    intros Hf m0. induction m0 as [d0|a kids IH] using mask_ind'; intros [d|a' kids'] H; try contradiction.
    - destruct (Hf d0 d H) as (d' & E & HR). exists (MArr d'). cbn. rewrite E. auto.
    - apply lw_grp in H as (<- & H). cbn [map_leaves].
      assert (G : exists kids'', mapM (fun p => if String.eqb (fst p) "latent" then Ok p else v <- map_leaves f (snd p) ;; Ok (fst p, v)) kids' = Ok kids'' /\ Forall2 (lwk R2) kids kids'').
      { clear a. revert kids' H. induction IH as [|p r Hp Hr IHr]; intros kids' H; inversion H as [|? q ? r' Hpq Hrr]; subst; cbn [mapM].
        - exists []; split; constructor.
        - destruct (IHr r' Hrr) as (ks & E & F). destruct Hpq as (E1 & E2). rewrite <- E1. destruct (String.eqb (fst p) "latent") eqn:EL.
          + exists (q :: ks). cbn [bind]. rewrite E. cbn [bind]. split; [reflexivity|]. constructor; [|exact F]. split; [exact E1|]. rewrite EL. exact E2.
          + destruct (Hp (snd q) E2) as (m' & Em & HR). rewrite Em. cbn [bind]. rewrite E. cbn [bind].
            eexists. split; [reflexivity|]. constructor; [|exact F]. split; [reflexivity|]. rewrite EL. exact HR. }
      destruct G as (ks & E & F). rewrite E. cbn [bind]. eexists. split; [reflexivity|]. apply lw_grp. auto.
  Qed.

  Lemma lw_refl (n : nat) (R : list bool -> list bool -> Prop) : (forall d, length d = n -> R d d) -> forall m, aggregable n m -> lw R m m.
  Proof.
    intros HR m. induction m as [d0|a kids IH] using mask_ind'; intros H; inversion H as [? Hl|? ? Ho Hne Hk]; subst; [apply HR; reflexivity|].
    apply lw_grp. split; [reflexivity|]. clear H Ho Hne. induction IH as [|p r Hp Hr IHr]; constructor.
    - split; [reflexivity|]. destruct (String.eqb (fst p) "latent"); [reflexivity|]. apply Hp. destruct p as [k v]. eapply Hk. left; reflexivity.
    - apply IHr. intros k v Hin. eapply Hk. right; exact Hin.
  Qed.

  Lemma dget_Forall2 (R : mask -> mask -> Prop) kids kids' k v :
    Forall2 (fun p q : string * mask => fst p = fst q /\ R (snd p) (snd q)) kids kids' -> dget k kids = Some v ->
    exists v', dget k kids' = Some v' /\ R v v'.
  Proof.
    intros H. induction H as [|[k1 v1] [k2 v2] r r' (E & HR) HF IH]; cbn; [discriminate|]. cbn in E, HR. subst k2.
    destruct (String.eqb k k1); [intros E; injection E as <-; eauto | exact IH].
  Qed.

  Definition leaf_related (R : list bool -> list bool -> Prop) (lat : bool) (m m' : mask) : Prop :=
    match m, m' with
    | MGrp a kids, MGrp a' kids' => a = a' /\ dkeys kids = dkeys kids'
    | MArr d, MArr d' => if lat then d = d' else R d d'
    | _, _ => False
    end.

  Lemma Forall2_dkeys (Q : string -> mask -> mask -> Prop) (kids kids' : list (string * mask)) :
    Forall2 (fun p q => fst p = fst q /\ Q (fst p) (snd p) (snd q)) kids kids' -> dkeys kids = dkeys kids'.
  Proof. induction 1 as [|p q r r' (E & _) _ IH]; cbn; [reflexivity|]. rewrite E. f_equal. exact IH. Qed.

  Lemma leaf_related_refl R m : leaf_related R true m m.
  Proof. destruct m; cbn; auto. Qed.

  Lemma lw_at R : forall p m m' v, lw R m m' -> at_path m p = Some v -> exists v', at_path m' p = Some v' /\ leaf_related R (has "latent" p) v v'.
  Proof.
    induction p as [|k p IH]; intros m m' v H Hv.
    - cbn in Hv. injection Hv as <-. exists m'. split; [reflexivity|]. destruct m, m'; try contradiction; cbn [has existsb]; [exact H|].
      apply lw_grp in H as (-> & H). split; [reflexivity|]. apply (Forall2_dkeys (fun k v v' => if String.eqb k "latent" then v = v' else lw R v v')). exact H.
    - destruct m as [d|a kids]; [discriminate|]. destruct m' as [d'|a' kids']; [contradiction|]. apply lw_grp in H as (-> & H).
      cbn [at_path] in *. destruct (dget k kids) as [w|] eqn:Ew; [|discriminate].
      assert (G : exists w', dget k kids' = Some w' /\ (if String.eqb k "latent" then w = w' else lw R w w')).
      { clear - H Ew. induction H as [|[k1 v1] [k2 v2] r r' (E & HR) HF IHF]; cbn in *; [discriminate|]. subst k2.
        destruct (String.eqb k k1) eqn:EK; [|auto]. injection Ew as <-. apply String.eqb_eq in EK. subst. eauto. }
      destruct G as (w' & Ew' & HR). rewrite Ew'. unfold has. cbn [existsb]. rewrite String.eqb_sym. destruct (String.eqb k "latent"); cbn [orb].
      + subst w'. exists v. split; [exact Hv | apply leaf_related_refl].
      + eapply IH; eauto.
  Qed.


Section Part.
  Context {P D : Type} (dist : P -> P -> D) (lt : D -> D -> bool) (HW : weak_order lt).
  Context (n : nat) (es : edges) (status : list Z) (final : list bool) (pmu : list P).
  Context (Les : length es = n) (Lst : length status = n) (Lfi : length final = n) (Lpm : length pmu = n).
  Context (Hst : Forall fits16 status).
  Context (Hdisj : forall v w i, hadron_vertex es status v -> hadron_vertex es status w ->
             final_desc es final v i -> final_desc es final w i -> v = w).
  Context (Hfin : forall v i, hadron_vertex es status v -> nth_error final i = Some true -> ~ incident es v i).

  Lemma nearest_unique v i e e' : nearest dist lt es pmu v i e -> nearest dist lt es pmu v i e' -> e = e'.
  Proof using.
    intros (I & pe & pi & E1 & E2 & H) (I' & pe' & pi' & E1' & E2' & H').
    assert (pi' = pi) by congruence; subst pi'.
    destruct (Nat.lt_trichotomy e e') as [L|[L|L]]; [exfalso| exact L |exfalso].
    - destruct (H e' pe' I' E1') as [A _]. destruct (H' e pe I E1) as [_ B]. rewrite (B L) in A. discriminate.
    - destruct (H e' pe' I' E1') as [_ A]. destruct (H' e pe I E1) as [B _]. rewrite (A L) in B. discriminate.
  Qed.

  Definition pin (v : Z) : list bool := map (fun e : Z * Z => Z.eqb v (snd e)) es.
  Lemma pin_len v : length (pin v) = n. Proof using Les. unfold pin. rewrite map_length. exact Les. Qed.
  Lemma pin_true v e : nth_error (pin v) e = Some true <-> incident es v e.
  Proof using.
    unfold pin, incident. rewrite nth_error_map'. destruct (nth_error es e) as [[a b]|]; cbn.
    - split; [intros H; injection H as H; apply Z.eqb_eq in H; rewrite H; exists a; reflexivity | intros (c & H); injection H as _ H; f_equal; rewrite H; apply Z.eqb_refl].
    - split; [discriminate | intros (c & H); discriminate].
  Qed.

  Lemma touches_dec (d : list bool) v : length d = n ->
    existsb (Z.eqb v) (compress d (map snd es)) = true <-> touches es d v.
  Proof using Les.
    intros Ld. rewrite existsb_exists. split.
    - intros (x & Hx & E). apply Z.eqb_eq in E. subst x. apply compress_In in Hx as (e & H1 & H2).
      rewrite nth_error_map' in H2. destruct (nth_error es e) as [[a b]|] eqn:Ee; [|discriminate]. cbn in H2. injection H2 as ->. exists e. split; [exists a; exact Ee|exact H1].
    - intros (e & (a & Ha) & H). exists v. split; [|apply Z.eqb_refl]. apply compress_In. exists e. split; [exact H|].
      rewrite nth_error_map', Ha. reflexivity.
  Qed.

  Lemma vertex_desc_ok v : hadron_vertex es status v -> exists m, vertex_descendants es v = Ok m /\ length m = n /\
    forall i, (nth_error m i = Some true <-> exists a b, nth_error es i = Some (a, b) /\ reach es v a).
  Proof using Les.
    intros (i0 & w & s & H0 & _). destruct (vertex_descendants_ok es v) as (m & E & L & H). exists m. split; [exact E|]. split; [rewrite L; exact Les|].
    assert (SV : src_of es v) by (exists w; eapply nth_error_In; eauto).
    intros i. split.
    - intros Hi. destruct (nth_error_in_range es i) as ([a b] & Ei); [rewrite <- L; apply nth_error_Some; congruence|].
      exists a, b. split; [exact Ei|]. destruct (H i a b Ei) as (x & Hx & A & _). assert (x = true) by congruence. subst x. apply A; auto.
    - intros (a & b & Ei & R). destruct (H i a b Ei) as (x & Hx & A & _). rewrite Hx. f_equal. apply A; auto.
  Qed.

  (** One vertex on one leaf. *)
  Lemma partition_leaf_ok v m d :
    hadron_vertex es status v -> vertex_descendants es v = Ok m -> length d = n ->
    exists d', partition_leaf dist lt es final pmu v m d = Ok d' /\ length d' = n /\
      (~ touches es d v -> d' = d) /\
      (touches es d v -> forall i, (final_desc es final v i -> exists e, nearest dist lt es pmu v i e /\ (nth_error d' i = Some true <-> nth_error d e = Some true)) /\
                                   (~ final_desc es final v i -> nth_error d' i = nth_error d i)).
  Proof using HW Les Lst Lfi Lpm.
    intros HV Em Ld. destruct (vertex_desc_ok v HV) as (m0 & Em0 & Lm & Hm). assert (m0 = m) by congruence; subst m0.
    unfold partition_leaf. rewrite getkey_mask by (rewrite map_length; congruence). cbn [bind].
    destruct (existsb (Z.eqb v) (compress d (map snd es))) eqn:ET.
    2:{ exists d. split; [reflexivity|]. split; [exact Ld|]. split; [reflexivity|]. intros T. apply touches_dec in T; [congruence|exact Ld]. }
    apply touches_dec in ET; [|exact Ld].
    unfold partition_vertex. fold (pin v). rewrite (getkey_mask pmu) by (rewrite pin_len; congruence). cbn [bind].
    unfold broadcast2. rewrite Lm, Lfi, Nat.eqb_refl. cbn [bind].
    assert (Lf : length (map2 andb m final) = n) by (rewrite map2_length; lia).
    rewrite (getkey_mask pmu) by congruence. cbn [bind].
    assert (HP : compress (pin v) pmu <> []).
    { destruct ET as (e & He & _). destruct (nth_error_in_range pmu e) as (p & Hp). { destruct He as (a & Ha). rewrite Lpm, <- Les. apply nth_error_Some. congruence. }
      assert (In p (compress (pin v) pmu)). { apply compress_In. exists e. split; [apply pin_true; exact He | exact Hp]. }
      intros E. rewrite E in H. contradiction. }
    assert (HA : exists al, mapM (fun h => argmin lt (map (fun p => dist p h) (compress (pin v) pmu))) (compress (map2 andb m final) pmu) = Ok al /\
      Forall2 (fun h a => exists q, nth_error (compress (pin v) pmu) a = Some q /\ forall j x, nth_error (compress (pin v) pmu) j = Some x -> lt (dist x h) (dist q h) = false /\ (j < a -> lt (dist q h) (dist x h) = true))
        (compress (map2 andb m final) pmu) al).
    { induction (compress (map2 andb m final) pmu) as [|h r IH]; cbn [mapM]; [exists []; split; constructor|].
      destruct IH as (al & E & F). destruct (argmin_spec lt HW (map (fun p => dist p h) (compress (pin v) pmu))) as (a & y & Ea & Hy & Ha).
      { intros E0. apply map_eq_nil in E0. contradiction. }
      exists (a :: al). rewrite Ea. cbn [bind]. rewrite E. cbn [bind]. split; [reflexivity|]. constructor; [|exact F].
      rewrite nth_error_map' in Hy. destruct (nth_error (compress (pin v) pmu) a) as [q|] eqn:Eq; [|discriminate]. cbn in Hy. injection Hy as <-.
      exists q. split; [reflexivity|]. intros j x Hj. apply Ha. rewrite nth_error_map', Hj. reflexivity. }
    destruct HA as (al & Eal & Fal). destruct (compress (pin v) pmu) as [|p0 pr] eqn:EP; [contradiction|]. rewrite <- EP in *. clear HP.
    rewrite Eal. cbn [bind]. rewrite (getkey_mask d) by (rewrite pin_len; congruence). cbn [bind]. rewrite Lf, Ld, Nat.eqb_refl.
    eexists. split; [reflexivity|]. split; [rewrite put_length; exact Ld|]. split; [contradiction|]. intros _ i.
    assert (HF : nth_error (map2 andb m final) i = Some true <-> final_desc es final v i).
    { unfold final_desc. rewrite map2_nth. rewrite <- Hm. destruct (nth_error m i) as [[|]|]; destruct (nth_error final i) as [[|]|]; cbn; split; intros H; try discriminate; try (destruct H; discriminate); auto. }
    split.
    - intros Hi. apply HF in Hi. destruct (put_true d (map2 andb m final) (map (fun a => existsb (Nat.eqb a) (positions (compress (pin v) d))) al) i) as (r & Hr & Ei); [congruence | | exact Hi |].
      { rewrite map_length. apply Forall2_length' in Fal. rewrite <- Fal, compress_length by congruence. reflexivity. }
      assert (Hh : nth_error (compress (map2 andb m final) pmu) r = nth_error pmu i) by (apply compress_nth; [congruence|exact Hr]).
      destruct (nth_error_in_range pmu i) as (h & Eh). { rewrite Lpm, <- Lf. apply nth_error_Some. congruence. }
      rewrite Eh in Hh. destruct (f2_nth _ _ _ r Fal) as [FA _].
      assert (Ha : exists a, nth_error al r = Some a). { apply nth_error_in_range. apply Forall2_length' in Fal. rewrite <- Fal. apply nth_error_Some. congruence. }
      destruct Ha as (a & Ha).
      assert (HQ : exists q, nth_error (compress (pin v) pmu) a = Some q /\ forall j x, nth_error (compress (pin v) pmu) j = Some x -> lt (dist x h) (dist q h) = false /\ (j < a -> lt (dist q h) (dist x h) = true)).
      { destruct (FA h Hh) as (a' & Ha' & HQ). assert (a' = a) by congruence. subst a'. exact HQ. }
      destruct HQ as (q & Hq & HQ).
      assert (Le : a < length (positions (pin v))). { rewrite positions_length, <- (compress_length (pin v) pmu) by (rewrite pin_len; congruence). apply nth_error_Some. congruence. }
      destruct (nth_error_in_range (positions (pin v)) a Le) as (e & He).
      assert (He' : incident es v e) by (apply pin_true, positions_In; eapply nth_error_In; exact He).
      assert (Hqe : nth_error pmu e = Some q). { rewrite <- Hq. symmetry. apply compress_nth; [rewrite pin_len; congruence|exact He]. }
      exists e. split.
      + split; [exact He'|]. exists q, h. split; [exact Hqe|]. split; [exact Eh|]. intros e' pe' I' E'.
        assert (exists j, nth_error (positions (pin v)) j = Some e') as (j & Hj) by (apply In_nth_error, positions_In, pin_true; exact I').
        destruct (HQ j pe') as [A B]. { rewrite <- E'. apply compress_nth; [rewrite pin_len; congruence|exact Hj]. }
        split; [exact A|]. intros L. apply B. eapply sorted_nth_mono; eauto.
      + rewrite Ei, nth_error_map', Ha. cbn.
        assert (EE : existsb (Nat.eqb a) (positions (compress (pin v) d)) = true <-> nth_error d e = Some true).
        { rewrite <- (compress_nth (pin v) d a e) by (first [exact He | rewrite pin_len; congruence]). rewrite <- positions_In, existsb_exists. split.
          - intros (x & Hx & E). apply Nat.eqb_eq in E. subst x. exact Hx.
          - intros H. exists a. split; [exact H|apply Nat.eqb_refl]. }
        rewrite <- EE. destruct (existsb _ _); split; intros H; congruence.
    - intros Hi. destruct (nth_error (map2 andb m final) i) as [[|]|] eqn:Ei.
      + exfalso. apply Hi, HF. reflexivity.
      + apply put_false. exact Ei.
      + apply nth_error_None in Ei. transitivity (@None bool); [apply nth_error_None; rewrite put_length; lia | symmetry; apply nth_error_None; lia].
  Qed.

  (** Step of the invariant. *)
  Definition Inv (done : Z -> Prop) (d0 d : list bool) : Prop := length d0 = n /\ partitioned dist lt es final pmu done d0 d.

  Lemma Inv_step (done : Z -> Prop) v m d0 d :
    (forall w, done w -> hadron_vertex es status w) -> ~ done v -> hadron_vertex es status v -> vertex_descendants es v = Ok m ->
    Inv done d0 d -> exists d', partition_leaf dist lt es final pmu v m d = Ok d' /\ Inv (fun w => done w \/ w = v) d0 d'.
  Proof using HW Les Lst Lfi Lpm Hdisj Hfin.
    intros HD Hn HV Em (L0 & L & H1 & H2). assert (Ld : length d = n) by congruence.
    destruct (partition_leaf_ok v m d HV Em Ld) as (d' & E & L' & HNT & HT). exists d'. split; [exact E|]. split; [exact L0|]. split; [congruence|].
    assert (Inc : forall e, incident es v e -> nth_error d e = nth_error d0 e).
    { intros e He. apply H2. intros w Hw _ (F & _). exact (Hfin v e HV F He). }
    assert (TT : touches es d v <-> touches es d0 v).
    { split; intros (e & He & Ht); exists e; split; auto; [rewrite <- Inc by auto | rewrite Inc by auto]; exact Ht. }
    assert (TD : touches es d v \/ ~ touches es d v).
    { destruct (existsb (Z.eqb v) (compress d (map snd es))) eqn:B; [left; apply touches_dec; auto | right; intros T; apply touches_dec in T; [congruence|auto]]. }
    split.
    - intros w i e [Hw| ->] Tw Fw Nw.
      + rewrite <- (H1 w i e Hw Tw Fw Nw). assert (nth_error d' i = nth_error d i) as ->; [|reflexivity].
        destruct TD as [T|T]; [|rewrite HNT by exact T; reflexivity]. apply (HT T i). intros Fv.
        apply Hn. replace v with w; [exact Hw|]. eapply Hdisj; eauto.
      + apply TT in Tw. destruct (proj1 (HT Tw i) Fw) as (e' & Ne & He). assert (e' = e) by (eapply nearest_unique; eauto). subst e'.
        rewrite He, Inc by apply Nw. reflexivity.
    - intros i Hi. rewrite <- H2.
      + destruct TD as [T|T]; [|rewrite HNT by exact T; reflexivity]. apply (HT T i). apply Hi; [right; reflexivity|]. apply TT; exact T.
      + intros w Hw. apply Hi. left; exact Hw.
  Qed.

  (** ** The whole run *)
  Definition top R (kids kids' : list (string * mask)) : Prop := Forall2 (fun p q => fst p = fst q /\ lw R (snd p) (snd q)) kids kids'.

  Lemma run_ok vs : forall (done : Z -> Prop) kids0 kids,
    (forall w, done w -> hadron_vertex es status w) -> NoDup vs -> (forall v, In v vs -> hadron_vertex es status v /\ ~ done v) ->
    top (Inv done) kids0 kids ->
    exists kids', foldM (fun kids v =>
            vtx_desc <- vertex_descendants es v ;;
            mapM (fun p => m <- map_leaves (partition_leaf dist lt es final pmu v vtx_desc) (snd p) ;; Ok (fst p, m)) kids) vs kids = Ok kids' /\
      top (Inv (fun w => done w \/ In w vs)) kids0 kids'.
  Proof using HW Les Lst Lfi Lpm Hdisj Hfin.
    induction vs as [|v vs IH]; intros done kids0 kids HD HN HV HT; cbn [foldM].
    - exists kids. split; [reflexivity|]. assert (Eq : forall d0 d, Inv done d0 d -> Inv (fun w => done w \/ In w []) d0 d).
      { intros d0 d (L0 & L & A & B). split; [exact L0|]. split; [exact L|]. split.
        - intros w i e [Hw|[]]; apply A; exact Hw.
        - intros i Hi. apply B. intros w Hw. apply Hi. left; exact Hw. }
      assert (HLW : forall m m', lw (Inv done) m m' -> lw (Inv (fun w => done w \/ In w [])) m m').
      { intros m m' H. destruct (lw_step _ (Inv (fun w => done w \/ In w [])) (fun d => Ok d) (fun d0 d h => ex_intro _ d (conj eq_refl (Eq d0 d h))) m m' H) as (m'' & E & H').
        replace m' with m''; [exact H'|]. assert (ID : forall x y, map_leaves (fun d => Ok d) x = Ok y -> y = x); [|exact (ID _ _ E)].
        clear. intros x. induction x as [d|a kids IH] using mask_ind'; intros y E; cbn in E; [congruence|]. apply bind_ok in E as (ks & E & F). injection F as <-. f_equal.
        revert ks E. induction IH as [|p r Hp Hr IHr]; intros ks E; cbn in E; [congruence|].
        apply bind_ok in E as (q & Eq & E). apply bind_ok in E as (qs & Eqs & E). injection E as <-. rewrite (IHr qs Eqs). f_equal.
        destruct (String.eqb (fst p) "latent"); [congruence|]. apply bind_ok in Eq as (w & Ew & Eq). injection Eq as <-. rewrite (Hp _ Ew). destruct p; reflexivity. }
      eapply Forall2_impl; [|exact HT]. cbn. intros p q (A & B). auto.
    - destruct (HV v (or_introl eq_refl)) as (HVv & Hnd). destruct (vertex_desc_ok v HVv) as (m & Em & _). rewrite Em. cbn [bind].
      assert (G : exists kids1, mapM (fun p => m <- map_leaves (partition_leaf dist lt es final pmu v m) (snd p) ;; Ok (fst p, m)) kids = Ok kids1 /\ top (Inv (fun w => done w \/ w = v)) kids0 kids1).
      { clear IH. induction HT as [|p q r r' (E & HL) HF IHF]; cbn [mapM]; [exists []; split; constructor|].
        destruct IHF as (ks & E1 & F1).
        destruct (lw_step (Inv done) (Inv (fun w => done w \/ w = v)) (partition_leaf dist lt es final pmu v m) (fun d0 d h => Inv_step done v m d0 d HD Hnd HVv Em h) _ _ HL) as (m' & Em' & HL').
        rewrite Em'. cbn [bind]. rewrite E1. cbn [bind]. eexists. split; [reflexivity|]. constructor; [|exact F1]. split; [exact E|exact HL']. }
      destruct G as (kids1 & E1 & T1). rewrite E1. cbn [bind]. inversion HN as [|? ? Hni HN']; subst.
      destruct (IH (fun w => done w \/ w = v) kids0 kids1) as (kids' & E2 & T2).
      + intros w [Hw| ->]; auto.
      + exact HN'.
      + intros w Hw. split; [apply HV; right; exact Hw|]. intros [Hd| ->]; [apply (HV w (or_intror Hw)); exact Hd | contradiction].
      + exact T1.
      + exists kids'. split; [exact E2|].
        assert (Eq : forall d0 d, Inv (fun w => (done w \/ w = v) \/ In w vs) d0 d -> Inv (fun w => done w \/ In w (v :: vs)) d0 d).
        { intros d0 d (L0 & L & A & B). split; [exact L0|]. split; [exact L|]. split.
          - intros w i e Hw; apply A. cbn in Hw. destruct Hw as [Hw|[Hw|Hw]]; auto.
          - intros i Hi. apply B. intros w Hw. apply Hi. cbn. destruct Hw as [[Hw|Hw]|Hw]; auto. }
        eapply Forall2_impl; [|exact T2]. cbn. intros p q (A & B). split; [exact A|].
        clear - B Eq. revert B. generalize (snd q). generalize (snd p). clear p q.
        intros x. induction x as [d|a kids IH] using mask_ind'; intros [d'|a' kids'] B; try contradiction; [apply Eq, B|].
        apply lw_grp in B as (-> & B). apply lw_grp. split; [reflexivity|]. revert kids' B.
        induction IH as [|p r Hp Hr IHr]; intros kids' B; inversion B as [|? q ? r' (E1 & E2) B2]; subst; constructor; [|auto].
        split; [exact E1|]. destruct (String.eqb (fst p) "latent"); auto.
  Qed.
End Part.

Lemma Sorted_lt_NoDup l : StronglySorted Z.lt l -> NoDup l.
Proof.
  induction 1 as [|x r H IH HF]; constructor; auto. intros Hin. rewrite Forall_forall in HF. specialize (HF x Hin). lia.
Qed.
Lemma compress_NoDup {A} m (l : list A) : NoDup l -> NoDup (compress m l).
Proof.
  revert l; induction m as [|b m IH]; intros [|x l] H; try destruct b; cbn; try constructor; inversion H; subst; auto.
  intros Hin. apply compress_In in Hin as (i & _ & Hi). apply nth_error_In in Hi. contradiction.
Qed.

Section Run.
  Context {P D : Type} (dist : P -> P -> D) (lt : D -> D -> bool) (HW : weak_order lt).
  Context (n : nat) (es : edges) (status : list Z) (final : list bool) (pmu : list P).
  Context (Les : length es = n) (Lst : length status = n) (Lfi : length final = n) (Lpm : length pmu = n).
  Context (Hst : Forall fits16 status).
  Context (Hdisj : forall v w i, hadron_vertex es status v -> hadron_vertex es status w ->
             final_desc es final v i -> final_desc es final w i -> v = w).
  Context (Hfin : forall v i, hadron_vertex es status v -> nth_error final i = Some true -> ~ incident es v i).
  Lemma partition_ok agg kids : kids <> [] -> (forall k c, In (k, c) kids -> aggregable n c) ->
    exists kids', partition_descendants dist lt es status final pmu (MGrp agg kids) = Ok (MGrp agg kids') /\
      top (Inv dist lt n es final pmu (selected es status kids)) kids kids'.
  Proof using HW Les Lst Lfi Lpm Hst Hdisj Hfin.
    intros Hne Hag. unfold partition_descendants.
    assert (HD : exists ds, mapM (fun p => data (snd p)) kids = Ok ds /\ Forall2 (fun (p : string * mask) d => data (snd p) = Ok d /\ length d = n /\ forall i, nth_error d i = Some true <-> true_at i (snd p)) kids ds).
    { clear Hne. induction kids as [|[k c] r IH]; cbn [mapM]; [exists []; split; constructor|].
      destruct IH as (ds & E & F). { intros k' c' Hin. eapply Hag. right; exact Hin. }
      destruct (data_complete c n) as (d & Ed & Ld). { eapply Hag. left; reflexivity. }
      cbn [snd]. rewrite Ed. cbn [bind]. rewrite E. cbn [bind]. exists (d :: ds). split; [reflexivity|]. constructor; [|exact F]. cbn.
      split; [exact Ed|]. split; [exact Ld|]. apply data_sound. exact Ed. }
    destruct HD as (ds & Eds & Fds). rewrite Eds. cbn [bind].
    assert (HR : exists fh, np_reduce orb ds = Ok fh /\ length fh = n /\ forall i, nth_error fh i = Some true <-> exists k c, In (k, c) kids /\ true_at i c).
    { destruct ds as [|d tl]; [inversion Fds; subst; contradiction|].
      assert (LA : Forall (fun e => length e = n) (d :: tl)).
      { clear - Fds. remember (d :: tl) as l eqn:El. clear El. induction Fds as [|? ? ? ? (_ & L & _)]; constructor; auto. }
      inversion LA as [|? ? Ld Lt]; subst x l.
      exists (fold_left (map2 orb) tl d). split; [|split].
      - apply np_reduce_ok. exists d, tl. split; [reflexivity|]. split; [|reflexivity]. rewrite Ld. exact Lt.
      - clear - Ld Lt. revert d Ld. induction Lt as [|e r He _ IH]; intros d Ld; cbn; [exact Ld|]. apply IH. rewrite map2_length. lia.
      - intros i.
        assert (FO : forall (l : list (list bool)) e, length e = length d -> Forall (fun x => length x = length d) l -> (nth_error (fold_left (map2 orb) l e) i = Some true <-> exists x, In x (e :: l) /\ nth_error x i = Some true)).
        { intros l. induction l as [|y l IH]; intros e Le Fl; cbn [fold_left].
          - split; [intros H; exists e; split; [left; reflexivity|exact H] | intros (x & [<-|[]] & H); exact H].
          - inversion Fl as [|? ? Ly Fl']; subst x l0. rewrite IH by (first [rewrite map2_length; lia | exact Fl']). split.
            + intros (x & [<-|Hin] & H).
              * rewrite map2_nth in H. destruct (nth_error e i) as [[|]|] eqn:E1; destruct (nth_error y i) as [[|]|] eqn:E2; try discriminate;
                  first [exists e; split; [left; reflexivity | exact E1] | exists y; split; [right; left; reflexivity | exact E2]].
              * exists x. split; [right; right; exact Hin|exact H].
            + intros (x & [<-|[<-|Hin]] & H).
              * exists (map2 orb e y). split; [left; reflexivity|]. rewrite map2_nth, H. destruct (nth_error_in_range y i) as (b & Eb). { rewrite Ly, <- Le. apply nth_error_Some. congruence. }
                rewrite Eb. reflexivity.
              * exists (map2 orb e y). split; [left; reflexivity|]. rewrite map2_nth, H. destruct (nth_error_in_range e i) as (b & Eb). { rewrite Le, <- Ly. apply nth_error_Some. congruence. }
                rewrite Eb. rewrite orb_true_r. reflexivity.
              * exists x. split; [right; exact Hin|exact H]. }
        rewrite FO by (rewrite ?Ld; auto). clear - Fds. split.
        + intros (x & Hx & H). apply In_nth_error in Hx as (j & Hj). destruct (f2_nth _ _ _ j Fds) as (_ & F2). destruct (F2 x Hj) as ([k c] & Hp & _ & _ & HT).
          exists k, c. split; [eapply nth_error_In; exact Hp|]. apply HT. exact H.
        + intros (k & c & Hin & HT). apply In_nth_error in Hin as (j & Hj). destruct (f2_nth _ _ _ j Fds) as (F1 & _). destruct (F1 _ Hj) as (x & Hx & _ & _ & HX).
          exists x. split; [eapply nth_error_In; exact Hx|]. apply HX. exact HT. }
    destruct HR as (fh & Efh & Lfh & Hfh). rewrite Efh. cbn [bind].
    destruct (C38_hadron_vertices es status) as (vs & Evs & Hso & Hvs); [congruence|exact Hst|]. rewrite Evs. cbn [bind].
    assert (HS : exists sel, mapM (fun v => o <- broadcast2 andb (map (fun e : Z * Z => Z.eqb v (snd e)) es) fh ;; Ok (any o)) vs = Ok sel /\
      Forall2 (fun v (b : bool) => b = true <-> exists e, incident es v e /\ nth_error fh e = Some true) vs sel).
    { clear Evs Hso Hvs. induction vs as [|v vs IH]; cbn [mapM]; [exists []; split; constructor|]. destruct IH as (sel & E & F).
      fold (pin es v). unfold broadcast2 at 1. rewrite (pin_len n es Les), Lfh, Nat.eqb_refl. cbn [bind]. rewrite E. cbn [bind]. eexists. split; [reflexivity|]. constructor; [|exact F].
      rewrite any_true. split.
      - intros (e & He). exists e. rewrite map2_nth in He. rewrite <- pin_true. destruct (nth_error (pin es v) e) as [[|]|]; destruct (nth_error fh e) as [[|]|]; try discriminate. auto.
      - intros (e & He & Hf). exists e. apply pin_true in He. rewrite map2_nth, He, Hf. reflexivity. }
    destruct HS as (sel & Esel & Fsel). rewrite Esel. cbn [bind].
    assert (HC : forall v, In v (compress sel vs) <-> selected es status kids v).
    { intros v. rewrite compress_In. unfold selected. split.
      - intros (i & Hb & Hv). split; [apply Hvs; eapply nth_error_In; exact Hv|]. destruct (f2_nth _ _ _ i Fsel) as (F1 & _). destruct (F1 v Hv) as (b & Eb & HB). assert (b = true) by congruence. subst b.
        destruct (proj1 HB eq_refl) as (e & He & Hf). apply Hfh in Hf as (k & c & Hin & HT). exists e, k, c. auto.
      - intros (Hv & e & k & c & He & Hin & HT). apply Hvs in Hv. apply In_nth_error in Hv as (i & Hi). exists i. split; [|exact Hi].
        destruct (f2_nth _ _ _ i Fsel) as (F1 & _). destruct (F1 v Hi) as (b & Eb & HB). rewrite Eb. f_equal. apply HB. exists e. split; [exact He|]. apply Hfh. eauto. }
    destruct (run_ok dist lt HW n es status final pmu Les Lst Lfi Lpm Hdisj Hfin (compress sel vs) (fun _ => False) kids kids) as (kids' & Er & Tr).
    - contradiction.
    - apply compress_NoDup, Sorted_lt_NoDup. exact Hso.
    - intros v Hv. split; [apply HC in Hv; apply Hv | auto].
    - assert (HRf : forall d, length d = n -> Inv dist lt n es final pmu (fun _ => False) d d).
      { intros d Ld. split; [exact Ld|]. split; [reflexivity|]. split; [contradiction|reflexivity]. }
      clear - HRf Hag. induction kids as [|[k c] r IH]; constructor.
      + split; [reflexivity|]. apply (lw_refl n); [exact HRf|]. eapply Hag. left; reflexivity.
      + apply IH. intros k' c' Hin. eapply Hag. right; exact Hin.
    - rewrite Er. cbn [bind]. exists kids'. split; [reflexivity|].
      assert (Eq : forall d0 d, Inv dist lt n es final pmu (fun w => False \/ In w (compress sel vs)) d0 d -> Inv dist lt n es final pmu (selected es status kids) d0 d).
      { intros d0 d (L0 & L & A & B). split; [exact L0|]. split; [exact L|]. split.
        - intros w i e Hw; apply A. right. apply HC. exact Hw.
        - intros i Hi. apply B. intros w [[]|Hw]. apply Hi. apply HC. exact Hw. }
      eapply Forall2_impl; [|exact Tr]. cbn. intros p q (A & B). split; [exact A|].
      clear - B Eq. revert B. generalize (snd q). generalize (snd p). clear p q.
      intros x. induction x as [d|a kd IH] using mask_ind'; intros [d'|a' kids'] B; try contradiction; [apply Eq, B|].
      apply lw_grp in B as (-> & B). apply lw_grp. split; [reflexivity|]. revert kids' B.
      induction IH as [|p r Hp Hr IHr]; intros kids' B; inversion B as [|? q ? r' (E1 & E2) B2]; subst; constructor; [|auto].
      split; [exact E1|]. destruct (String.eqb (fst p) "latent"); auto.
  Qed.
End Run.
