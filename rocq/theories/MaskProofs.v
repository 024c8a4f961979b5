(** Lemmas about the mask model.  Property theorems are in P_Mask.v. *)
From Verif Require Import Prelude Dict Keys MaskTypes SpecMask Mask.

(* ---------------------------------------------------------------- *)
(** * agg_op strings *)

Ltac all_ascii c := destruct c as [[] [] [] [] [] [] [] []].

Lemma low_a c : lower_ascii c = "a"%char <-> c = "a"%char \/ c = "A"%char.
Proof. all_ascii c; vm_compute; intuition congruence. Qed.
Lemma low_n c : lower_ascii c = "n"%char <-> c = "n"%char \/ c = "N"%char.
Proof. all_ascii c; vm_compute; intuition congruence. Qed.
Lemma low_d c : lower_ascii c = "d"%char <-> c = "d"%char \/ c = "D"%char.
Proof. all_ascii c; vm_compute; intuition congruence. Qed.
Lemma low_o c : lower_ascii c = "o"%char <-> c = "o"%char \/ c = "O"%char.
Proof. all_ascii c; vm_compute; intuition congruence. Qed.
Lemma low_r c : lower_ascii c = "r"%char <-> c = "r"%char \/ c = "R"%char.
Proof. all_ascii c; vm_compute; intuition congruence. Qed.
Lemma low_e c : lower_ascii c = "e"%char <-> c = "e"%char \/ c = "E"%char.
Proof. all_ascii c; vm_compute; intuition congruence. Qed.

Lemma string_cons_inv c1 s1 c2 s2 : String c1 s1 = String c2 s2 <-> c1 = c2 /\ s1 = s2.
Proof. split; [intros H; injection H; auto | intros [-> ->]; reflexivity]. Qed.

Lemma lower_and s : lower s = "and"%string <-> means s AND.
Proof.
  unfold means. split.
  - destruct s as [|c1 [|c2 [|c3 [|c4 s]]]]; cbn [lower]; try discriminate; intros H;
      repeat (apply string_cons_inv in H as [?H0 H]); try discriminate.
    apply low_a in H0. apply low_n in H1. apply low_d in H2.
    destruct H0 as [->| ->], H1 as [->| ->], H2 as [->| ->]; tauto.
  - intuition subst; reflexivity.
Qed.

Lemma lower_or s : lower s = "or"%string <-> means s OR.
Proof.
  unfold means. split.
  - destruct s as [|c1 [|c2 [|c3 s]]]; cbn [lower]; try discriminate; intros H;
      repeat (apply string_cons_inv in H as [?H0 H]); try discriminate.
    apply low_o in H0. apply low_r in H1.
    destruct H0 as [->| ->], H1 as [->| ->]; tauto.
  - intuition subst; reflexivity.
Qed.

Lemma lower_none s : lower s = "none"%string <-> means s NONE.
Proof.
  unfold means. split.
  - destruct s as [|c1 [|c2 [|c3 [|c4 [|c5 s]]]]]; cbn [lower]; try discriminate; intros H;
      repeat (apply string_cons_inv in H as [?H0 H]); try discriminate.
    apply low_n in H0. apply low_o in H1. apply low_n in H2. apply low_e in H3.
    destruct H0 as [->| ->], H1 as [->| ->], H2 as [->| ->], H3 as [->| ->]; simpl; tauto.
  - simpl. intuition subst; reflexivity.
Qed.

Lemma agg_op_means s o : agg_op s = Ok o <-> means s o.
Proof.
  unfold agg_op.
  destruct (String.eqb_spec (lower s) "and") as [E|N1].
  { split; [intros H; injection H as <-; apply lower_and; exact E|].
    destruct o; intros H; [reflexivity| |].
    - apply lower_or in H; congruence.
    - apply lower_none in H; congruence. }
  destruct (String.eqb_spec (lower s) "or") as [E|N2].
  { split; [intros H; injection H as <-; apply lower_or; exact E|].
    destruct o; intros H; [|reflexivity|].
    - apply lower_and in H; congruence.
    - apply lower_none in H; congruence. }
  destruct (String.eqb_spec (lower s) "none") as [E|N3].
  { split; [intros H; injection H as <-; apply lower_none; exact E|].
    destruct o; intros H; [| |reflexivity].
    - apply lower_and in H; congruence.
    - apply lower_or in H; congruence. }
  split; [discriminate|]. destruct o; intros H; exfalso.
  - apply N1, lower_and, H.
  - apply N2, lower_or, H.
  - apply N3, lower_none, H.
Qed.

Lemma means_fun s o1 o2 : means s o1 -> means s o2 -> o1 = o2.
Proof. intros H1 H2. apply agg_op_means in H1, H2. congruence. Qed.

Lemma agg_op_value o : agg_op (agg_value o) = Ok o.
Proof. destruct o; reflexivity. Qed.

(* ---------------------------------------------------------------- *)
(** * data *)

Lemma fold_map2_length (f : bool -> bool -> bool) r d n :
  length d = n -> Forall (fun e : list bool => length e = n) r -> length (fold_left (map2 f) r d) = n.
Proof.
  intros Hd Hr; revert d Hd; induction Hr as [|e r He Hr IH]; intros d Hd; cbn [fold_left]; [exact Hd|].
  apply IH. rewrite map2_length; lia.
Qed.

Lemma map2_andb_true x y n i :
  length x = n -> length y = n ->
  (nth_error (map2 andb x y) i = Some true <-> nth_error x i = Some true /\ nth_error y i = Some true).
Proof.
  intros Hx Hy. rewrite map2_nth.
  destruct (nth_error x i) as [[]|] eqn:E1, (nth_error y i) as [[]|] eqn:E2; simpl; intuition congruence.
Qed.

Lemma map2_orb_true x y n i :
  length x = n -> length y = n ->
  (nth_error (map2 orb x y) i = Some true <-> nth_error x i = Some true \/ nth_error y i = Some true).
Proof.
  intros Hx Hy. rewrite map2_nth.
  destruct (nth_error x i) as [[]|] eqn:E1, (nth_error y i) as [[]|] eqn:E2; simpl;
    try (intuition congruence).
  all: exfalso;
    assert (E1' : nth_error x i = None <-> length x <= i) by apply nth_error_None;
    assert (E2' : nth_error y i = None <-> length y <= i) by apply nth_error_None;
    rewrite Hx, E1 in E1'; rewrite Hy, E2 in E2'; intuition congruence.
Qed.

Lemma fold_and_true r d n i :
  length d = n -> Forall (fun e : list bool => length e = n) r ->
  (nth_error (fold_left (map2 andb) r d) i = Some true <->
   nth_error d i = Some true /\ Forall (fun e => nth_error e i = Some true) r).
Proof.
  intros Hd Hr; revert d Hd; induction Hr as [|e r He Hr IH]; intros d Hd; cbn [fold_left].
  - intuition.
  - rewrite IH by (rewrite map2_length; lia).
    rewrite (map2_andb_true d e n) by assumption. split.
    + intros [[H1 H2] H3]; split; [exact H1 | constructor; assumption].
    + intros [H1 H2]; inversion H2; subst; auto.
Qed.

Lemma fold_or_true r d n i :
  length d = n -> Forall (fun e : list bool => length e = n) r ->
  (nth_error (fold_left (map2 orb) r d) i = Some true <->
   nth_error d i = Some true \/ Exists (fun e => nth_error e i = Some true) r).
Proof.
  intros Hd Hr; revert d Hd; induction Hr as [|e r He Hr IH]; intros d Hd; cbn [fold_left].
  - split; [auto | intros [H|H]; [exact H | inversion H]].
  - rewrite IH by (rewrite map2_length; lia).
    rewrite (map2_orb_true d e n) by assumption. rewrite Exists_cons. tauto.
Qed.

Lemma np_reduce_ok f ds r :
  np_reduce f ds = Ok r <->
  exists d tl, ds = d :: tl /\ Forall (fun e => length e = length d) tl /\ r = fold_left (map2 f) tl d.
Proof.
  destruct ds as [|d tl]; simpl.
  - split; [discriminate | intros (d & tl & H & _); discriminate].
  - destruct (forallb _ tl) eqn:E; split.
    + intros H; injection H as <-. exists d, tl. split; [reflexivity|]. split; [|reflexivity].
      rewrite forallb_forall in E. apply Forall_forall. intros e He. apply Nat.eqb_eq, E, He.
    + intros (d' & tl' & H & _ & ->). injection H as <- <-. reflexivity.
    + discriminate.
    + intros (d' & tl' & H & HF & _). injection H as <- <-. exfalso.
      assert (forallb (fun e => length e =? length d) tl = true); [|congruence].
      apply forallb_forall. intros e He. apply Nat.eqb_eq. rewrite Forall_forall in HF. auto.
Qed.

(** The two directions of C02 at once: [data] succeeds exactly on aggregable
    masks, with the specified elements. *)
Lemma Forall2_In_l {A B} (P : A -> B -> Prop) l r x :
  Forall2 P l r -> In x l -> exists y, In y r /\ P x y.
Proof.
  induction 1 as [|a b l r Hab H IH]; [intros [] | intros [<-|Hx]]; simpl.
  - eauto.
  - destruct IH as (y & H1 & H2); eauto.
Qed.
Lemma Forall2_In_r {A B} (P : A -> B -> Prop) l r y :
  Forall2 P l r -> In y r -> exists x, In x l /\ P x y.
Proof.
  induction 1 as [|a b l r Hab H IH]; [intros [] | intros [<-|Hx]]; simpl.
  - eauto.
  - destruct IH as (x & H1 & H2); eauto.
Qed.

Lemma data_grp_ok agg kids d :
  data (MGrp agg kids) = Ok d <->
  exists o ds, means agg o /\ o <> NONE /\ Forall2 (fun p e => data (snd p) = Ok e) kids ds /\
               np_reduce (match o with OR => orb | _ => andb end) ds = Ok d.
Proof.
  cbn [data]. rewrite bind_ok. split.
  - intros (o & Ho & H). apply agg_op_means in Ho.
    destruct o; [| |discriminate]; apply bind_ok in H as (ds & Hds & H); apply mapM_ok in Hds;
      (eexists; exists ds; split; [exact Ho|]; split; [discriminate|]; auto).
  - intros (o & ds & Ho & HN & Hds & H). exists o. split; [apply agg_op_means; exact Ho|].
    destruct o; [| |congruence]; apply mapM_ok in Hds; rewrite Hds; exact H.
Qed.

Lemma data_sound m : forall d, data m = Ok d ->
  aggregable (length d) m /\ (forall i, nth_error d i = Some true <-> true_at i m).
Proof.
  induction m as [d0|agg kids IH] using mask_ind'; intros d Hd.
  - injection Hd as ->. split; [constructor; reflexivity|].
    intros i; split; [intros H; constructor; exact H | intros H; inversion H; assumption].
  - apply data_grp_ok in Hd as (o & ds & Ho & HN & Hds & Hr).
    apply np_reduce_ok in Hr as (d1 & tl & -> & Hlen & Hr).
    set (n := length d1) in *.
    assert (Hall : Forall (fun e : list bool => length e = n) (d1 :: tl)) by (constructor; auto).
    assert (Hn : length d = n) by (rewrite Hr; apply fold_map2_length; auto).
    rewrite Forall_forall in IH.
    assert (Hk : forall k v, In (k, v) kids -> exists e, In e (d1 :: tl) /\ data v = Ok e /\ length e = n).
    { intros k v Hkv. destruct (Forall2_In_l _ _ _ _ Hds Hkv) as (e & He & Hde).
      exists e. split; [exact He|]. split; [exact Hde|]. rewrite Forall_forall in Hall; auto. }
    split.
    + rewrite Hn. constructor.
      * destruct o; [left; exact Ho | right; exact Ho | congruence].
      * intros ->; inversion Hds.
      * intros k v Hkv. destruct (Hk k v Hkv) as (e & _ & He & Hle).
        rewrite <- Hle. exact (proj1 (IH (k, v) Hkv e He)).
    + intros i. rewrite Hr. destruct o; [| |congruence].
      * rewrite (fold_and_true tl d1 n) by (auto; reflexivity).
        rewrite <- (Forall_cons_iff (fun e => nth_error e i = Some true)).
        rewrite Forall_forall. split.
        -- intros H. apply T_and; [exact Ho|]. intros k v Hkv.
           destruct (Hk k v Hkv) as (e & He & Hde & _).
           apply (proj2 (IH (k, v) Hkv e Hde) i). auto.
        -- intros H e He. destruct (Forall2_In_r _ _ _ _ Hds He) as ([k v] & Hkv & Hde).
           apply (proj2 (IH (k, v) Hkv e Hde) i).
           inversion H as [|? ? Hm Hall'|? ? ? ? Hm]; subst.
           ++ exact (Hall' k v Hkv).
           ++ pose proof (means_fun _ _ _ Hm Ho); discriminate.
      * rewrite (fold_or_true tl d1 n) by (auto; reflexivity).
        rewrite <- (Exists_cons (fun e => nth_error e i = Some true)).
        rewrite Exists_exists. split.
        -- intros (e & He & Hi). destruct (Forall2_In_r _ _ _ _ Hds He) as ([k v] & Hkv & Hde).
           apply (T_or i agg kids k v); [exact Ho | exact Hkv |].
           apply (proj2 (IH (k, v) Hkv e Hde) i). exact Hi.
        -- intros H. inversion H as [|? ? Hm|? ? k v Hm Hkv Hi]; subst.
           ++ pose proof (means_fun _ _ _ Hm Ho); discriminate.
           ++ destruct (Hk k v Hkv) as (e & He & Hde & _). exists e; split; [exact He|].
              apply (proj2 (IH (k, v) Hkv e Hde) i). exact Hi.
Qed.

Lemma data_complete m : forall n, aggregable n m -> exists d, data m = Ok d /\ length d = n.
Proof.
  induction m as [d0|agg kids IH] using mask_ind'; intros n H; inversion H as [? Hl|? ? Ho Hne Hk]; subst.
  - exists d0; auto.
  - rewrite Forall_forall in IH.
    assert (Hds : exists ds, Forall2 (fun p e => data (snd p) = Ok e) kids ds /\
                             Forall (fun e : list bool => length e = n) ds).
    { clear Ho Hne H. induction kids as [|[k v] r IHr]; [exists []; auto|].
      destruct IHr as (ds & H1 & H2).
      - intros p Hp n' Hn'. apply IH; [right; exact Hp | exact Hn'].
      - intros k' v' H'. apply (Hk k' v'); right; exact H'.
      - destruct (IH (k, v) (or_introl eq_refl) n) as (e & He & Hle); [apply (Hk k v); left; reflexivity|].
        exists (e :: ds). split; constructor; auto. }
    destruct Hds as (ds & Hds & Hlen).
    destruct ds as [|d1 tl]; [inversion Hds; subst; congruence|].
    inversion Hlen as [|? ? H1 H2]; subst.
    assert (Hex : exists o, means agg o /\ o <> NONE) by (destruct Ho as [Ho|Ho]; eexists; (split; [exact Ho | discriminate])).
    destruct Hex as (o & Hm & HN).
    exists (fold_left (map2 (match o with OR => orb | _ => andb end)) tl d1). split.
    + apply data_grp_ok. exists o, (d1 :: tl). repeat (split; [assumption|]).
      apply np_reduce_ok. exists d1, tl. auto.
    + apply fold_map2_length; auto.
Qed.

(* ---------------------------------------------------------------- *)
(** * slicing *)

Lemma getkey_map2 (f : bool -> bool -> bool) x y k ps x' y' :
  length x = length y -> resolve (length x) k = Ok ps ->
  getkey x k = Ok x' -> getkey y k = Ok y' ->
  getkey (map2 f x y) k = Ok (map2 f x' y').
Proof.
  intros Hl Hp Hx Hy. apply getkey_ok. exists ps.
  split; [rewrite map2_length, <- Hl, Nat.min_id; exact Hp|].
  apply getkey_ok in Hx as (ps1 & Hp1 & Hx). apply getkey_ok in Hy as (ps2 & Hp2 & Hy).
  rewrite <- Hl in Hp2. assert (ps1 = ps) by congruence. assert (ps2 = ps) by congruence. subst ps1 ps2.
  clear Hp Hp1 Hp2. revert x' y' Hx Hy. induction ps as [|p ps IH]; intros [|a x'] [|b y'] Hx Hy; simpl in *; try discriminate; auto.
  injection Hx as Hx1 Hx2. injection Hy as Hy1 Hy2. f_equal; [|auto].
  rewrite map2_nth, <- Hx1, <- Hy1. reflexivity.
Qed.

Lemma getkey_fold_map2 (f : bool -> bool -> bool) tl d k ps d' tl' :
  Forall (fun e : list bool => length e = length d) tl -> resolve (length d) k = Ok ps ->
  getkey d k = Ok d' -> Forall2 (fun e e' => getkey e k = Ok e') tl tl' ->
  getkey (fold_left (map2 f) tl d) k = Ok (fold_left (map2 f) tl' d').
Proof.
  intros Hl Hp Hd Ht. revert d d' Hl Hp Hd.
  induction Ht as [|e e' tl tl' He Ht IH]; intros d d' Hl Hp Hd; cbn [fold_left]; [exact Hd|].
  inversion Hl as [|? ? Hle Hl']; subst.
  assert (Hml : length (map2 f d e) = length d) by (rewrite map2_length; lia).
  apply IH.
  - rewrite Hml. exact Hl'.
  - rewrite Hml; exact Hp.
  - eapply getkey_map2; eauto.
Qed.

Lemma slice_data_strong k m : forall d, data m = Ok d ->
  match getkey d k with
  | Ok d' => exists m', slice k m = Ok m' /\ data m' = Ok d'
  | Err e => slice k m = Err e
  end.
Proof.
  induction m as [d0|agg kids IH] using mask_ind'; intros d Hd.
  - injection Hd as ->. cbn [slice]. destruct (getkey d k) as [d'|e]; simpl; eauto.
  - apply data_grp_ok in Hd as (o & ds & Ho & HN & Hds & Hr).
    apply np_reduce_ok in Hr as (d1 & tl & -> & Hlen & Hr).
    assert (Hall : Forall (fun e : list bool => length e = length d1) (d1 :: tl)) by (constructor; auto).
    assert (Hn : length d = length d1) by (rewrite Hr; apply fold_map2_length; auto).
    pose proof (getkey_resolve d k) as HR. rewrite Hn in HR.
    destruct (resolve (length d1) k) as [ps|e] eqn:HP.
    + destruct HR as (d' & Hd' & _). rewrite Hd'.
      assert (Hs : exists kids' ds', mapM (fun p => v <- slice k (snd p) ;; Ok (fst p, v)) kids = Ok kids' /\
                Forall2 (fun p e => data (snd p) = Ok e) kids' ds' /\
                Forall2 (fun e e' => getkey e k = Ok e') (d1 :: tl) ds').
      { clear Hr Hn Hlen. induction Hds as [|[k0 v0] e0 kids' es He Hds IHd]; [exists [], []; auto|].
        inversion IH as [|? ? IH0 IH']; subst. inversion Hall as [|? ? Hl0 Hall']; subst.
        destruct (IHd IH' Hall') as (kids2 & ds2 & H1 & H2 & H3).
        simpl in IH0, He. specialize (IH0 e0 He).
        pose proof (getkey_resolve e0 k) as HR0. rewrite Hl0, HP in HR0.
        destruct HR0 as (e0' & He0' & _). rewrite He0' in IH0. destruct IH0 as (v' & Hv' & Hdv').
        exists ((k0, v') :: kids2), (e0' :: ds2). simpl. rewrite Hv'. simpl. rewrite H1. simpl.
        split; [reflexivity|]. split; constructor; auto. }
      destruct Hs as (kids' & ds' & H1 & H2 & H3).
      exists (MGrp agg kids'). split; [cbn [slice]; rewrite H1; reflexivity|].
      inversion H3 as [|? d1' ? tl' Hd1' Htl']; subst.
      apply data_grp_ok. exists o, (d1' :: tl'). repeat (split; [assumption|]).
      apply np_reduce_ok. exists d1', tl'. split; [reflexivity|]. split.
      * apply Forall_forall. intros e' He'.
        destruct (Forall2_In_r _ _ _ _ Htl' He') as (e & He & Hee').
        rewrite Forall_forall in Hlen. specialize (Hlen e He).
        rewrite (getkey_length e k ps e'), (getkey_length d1 k ps d1'); auto. rewrite Hlen; exact HP.
      * assert (Hg := getkey_fold_map2 (match o with OR => orb | _ => andb end) tl d1 k ps d1' tl' Hlen HP Hd1' Htl').
        congruence.
    + rewrite HR. cbn [slice].
      inversion Hds as [|[k0 v0] ? kids' ? He Hds']; subst.
      inversion IH as [|? ? IH0 IH']; subst. simpl in IH0, He. specialize (IH0 d1 He).
      pose proof (getkey_resolve d1 k) as HR0. rewrite HP in HR0. rewrite HR0 in IH0.
      simpl. rewrite IH0. reflexivity.
Qed.

Lemma slice_data k m d : data m = Ok d -> bind (slice k m) data = getkey d k.
Proof.
  intros H. pose proof (slice_data_strong k m d H) as HS. destruct (getkey d k) as [d'|e].
  - destruct HS as (m' & -> & H'). exact H'.
  - rewrite HS. reflexivity.
Qed.

Lemma slice_skeleton k m : forall m', slice k m = Ok m' -> skeleton m' = skeleton m.
Proof.
  induction m as [d0|agg kids IH] using mask_ind'; intros m' H; cbn [slice] in H.
  - apply bind_ok in H as (r & _ & H). injection H as <-. reflexivity.
  - apply bind_ok in H as (kids' & H & E). injection E as <-. apply mapM_ok in H.
    cbn [skeleton]. f_equal.
    induction H as [|[k0 v0] q kids kids' Hq H IHk]; [reflexivity|].
    inversion IH as [|? ? IH0 IH']; subst. simpl.
    apply bind_ok in Hq as (v & Hv & Hq). injection Hq as <-. simpl in *.
    rewrite (IH0 v Hv), (IHk IH'). reflexivity.
Qed.

(** Every leaf of the sliced tree is the slice of the leaf at the same path. *)
Lemma slice_at_path k m : forall m' p, slice k m = Ok m' ->
  match at_path m p with
  | Some v => exists v', at_path m' p = Some v' /\ slice k v = Ok v'
  | None => at_path m' p = None
  end.
Proof.
  induction m as [d0|agg kids IH] using mask_ind'; intros m' p H.
  - pose proof H as H0. cbn [slice] in H. apply bind_ok in H as (r & _ & H). injection H as <-.
    destruct p; simpl; [eauto | reflexivity].
  - destruct p as [|s p]; [exists m'; auto|].
    cbn [slice] in H. apply bind_ok in H as (kids' & H & E). injection E as <-. apply mapM_ok in H.
    cbn [at_path]. induction H as [|[k0 v0] q kids kids' Hq H IHk]; [reflexivity|].
    inversion IH as [|? ? IH0 IH']; subst. simpl.
    apply bind_ok in Hq as (v & Hv & Hq). injection Hq as <-. simpl in *.
    destruct (String.eqb s k0); [apply IH0; exact Hv | apply IHk, IH'].
Qed.

(* ---------------------------------------------------------------- *)
(** * entries, flatten, leaf_masks *)

Lemma mapM_app {A B} (f : A -> res B) l r :
  mapM f (l ++ r) = (x <- mapM f l ;; y <- mapM f r ;; Ok (x ++ y)).
Proof.
  induction l as [|a l IH]; simpl.
  - destruct (mapM f r); reflexivity.
  - rewrite IH. destruct (f a); simpl; [|reflexivity]. destruct (mapM f l); simpl; [|reflexivity].
    destruct (mapM f r); reflexivity.
Qed.

Lemma entries_ne m p v : In (p, v) (entries m) -> p <> [].
Proof.
  destruct m as [d|agg kids]; simpl; [intros []|].
  rewrite in_flat_map. intros (q & _ & [H|H]).
  - injection H as <- _. discriminate.
  - apply in_map_iff in H as (e & He & _). injection He as <- _. discriminate.
Qed.

Lemma last_name_cons k p : p <> [] -> last_name (k :: p) = last_name p.
Proof. unfold last_name. destruct p; [congruence | reflexivity]. Qed.

Definition rise_entry (e : list string * mask) : res (string * mask) :=
  d <- data (snd e) ;; Ok (last_name (fst e), MArr d).

Lemma filter_map_comm {A B} (f : A -> B) (P : B -> bool) l :
  filter P (map f l) = map f (filter (fun x => P (f x)) l).
Proof. induction l as [|x l IH]; simpl; [reflexivity|]. destruct (P (f x)); simpl; rewrite IH; reflexivity. Qed.

Lemma filter_none {A} (P : A -> bool) l : (forall x, In x l -> P x = false) -> filter P l = [].
Proof.
  induction l as [|x l IH]; simpl; intros H; [reflexivity|].
  rewrite H by auto. apply IH; auto.
Qed.

Lemma visit_entries m : visit m = mapM rise_entry (filter risen (entries m)).
Proof.
  induction m as [d0|agg kids IH] using mask_ind'; [reflexivity|].
  cbn [visit entries].
  induction kids as [|[k v] kids IHk]; [reflexivity|].
  inversion IH as [|? ? IH0 IH']; subst. specialize (IHk IH'). simpl in IH0.
  cbn [mapM flat_map fst snd].
  rewrite filter_app, mapM_app, <- IHk. clear IHk IH IH'.
  assert (Hhead :
    (if (k =? "latent")%string then Ok []
     else match v with
          | MArr d => Ok [(k, MArr d)]
          | MGrp _ _ => d <- data v ;; sub <- visit v ;; Ok ((k, MArr d) :: sub)
          end)
    = mapM rise_entry (filter risen (([k], v) :: map (fun q => (k :: fst q, snd q)) (entries v)))).
  { destruct (String.eqb_spec k "latent") as [->|Hk].
    - rewrite filter_none; [reflexivity|]. intros e [<-|He]; [reflexivity|].
      apply in_map_iff in He as (q & <- & _). reflexivity.
    - assert (Hrk : forall p, risen (k :: p, v) = negb (has "latent" p)).
      { intros p. unfold risen, has. cbn [fst existsb].
        destruct (String.eqb_spec "latent" k); [congruence | reflexivity]. }
      cbn [filter]. rewrite Hrk. cbn [has existsb negb].
      cbn [mapM]. unfold rise_entry at 1. cbn [fst snd last_name].
      rewrite filter_map_comm.
      assert (Hsub : mapM rise_entry (map (fun q : list string * mask => (k :: fst q, snd q))
                (filter (fun x => risen (k :: fst x, snd x)) (entries v))) = visit v).
      { rewrite IH0, mapM_map.
        rewrite (filter_ext (fun x => risen (k :: fst x, snd x)) risen).
        - apply mapM_ext. intros [p w] Hpw. apply filter_In in Hpw as [Hpw _].
          unfold rise_entry; cbn [fst snd]. rewrite last_name_cons; [reflexivity|].
          eapply entries_ne; exact Hpw.
        - intros [p w]. unfold risen, has; cbn [fst existsb].
          destruct (String.eqb_spec "latent" k); [congruence | reflexivity]. }
      rewrite Hsub. destruct v as [d|a ks]; [reflexivity|].
      destruct (data (MGrp a ks)) as [d|e]; cbn [bind]; [|reflexivity].
      destruct (visit (MGrp a ks)); reflexivity. }
  rewrite Hhead.
  set (X := mapM rise_entry (filter risen (([k], v) :: map (fun q => (k :: fst q, snd q)) (entries v)))).
  destruct X as [x|e]; cbn [bind]; [|reflexivity].
  destruct (mapM _ kids) as [y|e]; cbn [bind]; reflexivity.
Qed.

Lemma entries_at_path m : forall p v, wf m -> (In (p, v) (entries m) <-> p <> [] /\ at_path m p = Some v).
Proof.
  induction m as [d0|agg kids IH] using mask_ind'; intros p v Hwf.
  - simpl. destruct p; simpl; intuition congruence.
  - apply wf_grp in Hwf as [ND Hwf]. cbn [entries]. rewrite in_flat_map. split.
    + intros ([k w] & Hkw & H). cbn [fst snd] in H.
      assert (Hg : dget k kids = Some w) by (apply In_dget; assumption).
      destruct H as [H|H].
      * injection H as <- <-. split; [discriminate|]. simpl. rewrite Hg. reflexivity.
      * apply in_map_iff in H as ([q u] & E & H). cbn [fst snd] in E. injection E as <- <-.
        split; [discriminate|]. cbn [at_path]. rewrite Hg.
        rewrite Forall_forall in IH, Hwf. apply (IH (k, w) Hkw q u (Hwf (k, w) Hkw)). exact H.
    + intros [Hne H]. destruct p as [|k p]; [congruence|]. cbn [at_path] in H.
      destruct (dget k kids) as [w|] eqn:Hg; [|discriminate].
      apply dget_In in Hg. exists (k, w). split; [exact Hg|]. cbn [fst snd].
      destruct p as [|k' p]; [left; simpl in H; congruence|]. right.
      apply in_map_iff. exists (k' :: p, v). split; [reflexivity|].
      rewrite Forall_forall in IH, Hwf. apply (IH (k, w) Hg _ _ (Hwf (k, w) Hg)).
      split; [discriminate | exact H].
Qed.

Definition named (e : list string * mask) : string * mask := (last_name (fst e), snd e).

Lemma leaf_iter_entries k m :
  leaf_mask_iter k m = map named (filter leafy_top (([k], m) :: map (fun q => (k :: fst q, snd q)) (entries m))).
Proof.
  revert k. induction m as [d0|agg kids IH] using mask_ind'; intros k; [reflexivity|].
  cbn [leaf_mask_iter entries filter leafy_top is_arr snd fst andb].
  induction kids as [|[k1 v1] kids IHk]; [reflexivity|].
  inversion IH as [|? ? IH0 IH']; subst. specialize (IHk IH'). cbn [flat_map fst snd] in *.
  rewrite IHk, map_app, filter_app, map_app. f_equal. clear IHk IH IH'.
  destruct (String.eqb_spec k1 "latent") as [->|Hk].
  - rewrite filter_none; [reflexivity|]. intros e He. apply in_map_iff in He as (q & <- & Hq).
    unfold leafy_top; cbn [fst snd tl].
    destruct Hq as [<-|Hq].
    + cbn. apply andb_false_r.
    + apply in_map_iff in Hq as (q' & <- & _). cbn. apply andb_false_r.
  - rewrite IH0. rewrite filter_map_comm, map_map.
    assert (Hf : forall e, In e (([k1], v1) :: map (fun q => (k1 :: fst q, snd q)) (entries v1)) ->
             leafy_top e = leafy_top (k :: fst e, snd e) /\ named e = named (k :: fst e, snd e)).
    { intros [p w] He.
      assert (Hp : exists p', p = k1 :: p').
      { destruct He as [E|He]; [injection E as <- _; eauto|].
        apply in_map_iff in He as (q & E & _). injection E as <- _. eauto. }
      destruct Hp as (p' & ->). split.
      - unfold leafy_top, has; cbn [fst snd tl existsb].
        destruct (String.eqb_spec "latent" k1); [congruence | reflexivity].
      - unfold named; cbn [fst snd]. rewrite (last_name_cons k); [reflexivity | discriminate]. }
    revert Hf. generalize (([k1], v1) :: map (fun q => (k1 :: fst q, snd q)) (entries v1)).
    intros l Hf. induction l as [|e l IHl]; [reflexivity|]. cbn [filter].
    destruct (Hf e (or_introl eq_refl)) as [H1 H2]. rewrite <- H1.
    destruct (leafy_top e); cbn [map]; [rewrite <- H2; f_equal|]; apply IHl; intros x Hx; apply Hf; right; exact Hx.
Qed.

Lemma fold_leaf_NoDup (g : string * mask -> list (string * mask)) kids acc :
  NoDup (dkeys acc ++ dkeys (flat_map g kids)) ->
  fold_left (fun acc p => fold_left (fun d q => dset (fst q) (snd q) d) (dict_of (g p)) acc) kids acc
  = acc ++ flat_map g kids.
Proof.
  revert acc; induction kids as [|p kids IH]; intros acc H; cbn [fold_left flat_map].
  - rewrite app_nil_r; reflexivity.
  - cbn [flat_map] in H. unfold dkeys in H. rewrite map_app in H.
    assert (H1 : NoDup (map fst acc ++ map fst (g p))).
    { rewrite app_assoc in H. revert H. generalize (map fst (flat_map g kids)).
      generalize (map fst acc ++ map fst (g p)). intros a b.
      induction b as [|x b IHb] using rev_ind; [rewrite app_nil_r; auto|].
      rewrite app_assoc. intros Hx. apply NoDup_remove_1 in Hx. rewrite app_nil_r in Hx. auto. }
    assert (H2 : NoDup (map fst (g p))).
    { revert H1. generalize (map fst acc) as a. induction a as [|x a IHa]; [auto|].
      intros Hx; inversion Hx; auto. }
    rewrite (dict_of_NoDup (g p)) by exact H2.
    rewrite dict_of_app_NoDup by exact H1.
    rewrite IH; [rewrite <- app_assoc; reflexivity|].
    unfold dkeys; rewrite map_app, <- app_assoc; exact H.
Qed.

Lemma leaf_flat_map agg kids :
  flat_map (fun p => leaf_mask_iter (fst p) (snd p)) kids
  = map named (filter leafy_top (entries (MGrp agg kids))).
Proof.
  cbn [entries]. induction kids as [|[k v] kids IH]; [reflexivity|].
  cbn [flat_map fst snd]. rewrite filter_app, map_app, IH, leaf_iter_entries. reflexivity.
Qed.

(* ---------------------------------------------------------------- *)
(** * recursive_drop *)

Lemma rdrop_wf key m : wf m -> wf (recursive_drop key m).
Proof.
  induction m as [d0|agg kids IH] using mask_ind'; intros H; [exact I|].
  apply wf_grp in H as [ND H]. cbn [recursive_drop]. apply wf_grp.
  assert (ND' : NoDup (dkeys (map (fun p => (fst p, recursive_drop key (snd p))) kids)))
    by (rewrite dkeys_map; exact ND).
  split; [apply ddel_NoDup; exact ND'|].
  rewrite ddel_filter by exact ND'. apply Forall_forall. intros p Hp.
  apply filter_In in Hp as [Hp _]. apply in_map_iff in Hp as (q & <- & Hq). simpl.
  rewrite Forall_forall in IH, H. apply IH; [exact Hq | apply H; exact Hq].
Qed.

Lemma rdrop_at_path key m : forall p, wf m -> ~ In key p ->
  at_path (recursive_drop key m) p = option_map (recursive_drop key) (at_path m p).
Proof.
  induction m as [d0|agg kids IH] using mask_ind'; intros p H Hp; destruct p as [|k p]; try reflexivity.
  apply wf_grp in H as [ND H].
  assert (ND' : NoDup (dkeys (map (fun p => (fst p, recursive_drop key (snd p))) kids)))
    by (rewrite dkeys_map; exact ND).
  cbn [recursive_drop at_path].
  rewrite dget_ddel by exact ND'.
  destruct (String.eqb_spec k key) as [->|Hk]; [exfalso; apply Hp; left; reflexivity|].
  rewrite dget_map. destruct (dget k kids) as [v|] eqn:Hg; [|reflexivity]. cbn [option_map].
  apply dget_In in Hg. rewrite Forall_forall in IH, H.
  apply (IH (k, v) Hg p (H (k, v) Hg)). intros Hi; apply Hp; right; exact Hi.
Qed.

Lemma at_path_app m p q : at_path m (p ++ q) = match at_path m p with Some v => at_path v q | None => None end.
Proof.
  revert m; induction p as [|k p IH]; intros m; [reflexivity|].
  destruct m as [d|agg kids]; cbn [at_path app]; [reflexivity|].
  destruct (dget k kids); [apply IH | reflexivity].
Qed.

Lemma rdrop_gone key m p : wf m -> In key p -> at_path (recursive_drop key m) p = None.
Proof.
  revert m; induction p as [|k p IH]; intros m H Hp; [destruct Hp|].
  destruct m as [d|agg kids]; [reflexivity|].
  apply wf_grp in H as [ND H].
  assert (ND' : NoDup (dkeys (map (fun p => (fst p, recursive_drop key (snd p))) kids)))
    by (rewrite dkeys_map; exact ND).
  cbn [recursive_drop at_path]. rewrite dget_ddel by exact ND'.
  destruct (String.eqb_spec k key) as [->|Hk]; [reflexivity|].
  rewrite dget_map. destruct (dget k kids) as [v|] eqn:Hg; [|reflexivity]. cbn [option_map].
  apply dget_In in Hg. rewrite Forall_forall in H. apply IH; [apply (H (k, v) Hg)|].
  destruct Hp as [Hp|Hp]; [congruence | exact Hp].
Qed.


Lemma rdrop_level key m : wf m ->
  level (recursive_drop key m) =
  match level m with
  | inl d => inl d
  | inr (agg, ks) => inr (agg, filter (fun k => negb (String.eqb k key)) ks)
  end.
Proof.
  destruct m as [d|agg kids]; intros H; [reflexivity|].
  apply wf_grp in H as [ND _]. cbn [recursive_drop level]. do 2 f_equal.
  rewrite ddel_filter by (rewrite dkeys_map; exact ND).
  unfold dkeys. rewrite filter_map_comm. cbn [fst]. rewrite map_map. cbn [fst].
  clear ND. induction kids as [|[k v] kids IH]; [reflexivity|]. simpl.
  destruct (negb (k =? key)%string); simpl; rewrite IH; reflexivity.
Qed.

(* ---------------------------------------------------------------- *)
(** * equal_to *)

Lemma list_bool_eqb_eq x y : list_bool_eqb x y = true <-> x = y.
Proof.
  revert y; induction x as [|a x IH]; intros [|b y]; simpl; try (split; [discriminate | discriminate]); [tauto|].
  rewrite andb_true_iff, IH, eqb_true_iff. split; [intros [-> ->]; reflexivity | intros H; injection H; auto].
Qed.

Lemma keys_eqb_eq x y : keys_eqb x y = true <-> x = y.
Proof.
  revert y; induction x as [|a x IH]; intros [|b y]; simpl; try (split; [discriminate | discriminate]); [tauto|].
  rewrite andb_true_iff, IH, String.eqb_eq. split; [intros [-> ->]; reflexivity | intros H; injection H; auto].
Qed.

Lemma existsb_eqb_In k l : existsb (String.eqb k) l = true <-> In k l.
Proof.
  rewrite existsb_exists. split.
  - intros (x & Hx & E). apply String.eqb_eq in E. congruence.
  - intros H. exists k; split; [exact H | apply String.eqb_refl].
Qed.

Lemma keys_seteqb_eq x y : keys_seteqb x y = true <-> (forall k, In k x <-> In k y).
Proof.
  unfold keys_seteqb. rewrite andb_true_iff, !forallb_forall. split.
  - intros [H1 H2] k. split; intros Hk.
    + apply existsb_eqb_In, H1, Hk.
    + apply existsb_eqb_In, H2, Hk.
  - intros H; split; intros k Hk; apply existsb_eqb_In, H, Hk.
Qed.

(** The comparison loop over the names of the first group. *)
Lemma eq_grp (ord : bool) a1 a2 k1 k2 :
  (if negb ((if ord then keys_eqb else keys_seteqb) (dkeys k1) (dkeys k2)) then Ok false
   else foldM (fun (s : bool) p =>
                 if s then match dget (fst p) k2 with
                           | None => Err KeyError
                           | Some v2 => maskgroup_equal ord (snd p) v2
                           end else Ok false) k1 true)
  = maskgroup_equal ord (MGrp a1 k1) (MGrp a2 k2).
Proof.
  cbn [maskgroup_equal].
  destruct (negb _); [reflexivity|].
  induction k1 as [|p k1 IH]; [reflexivity|]. cbn [foldM].
  destruct (dget (fst p) k2) as [v2|]; [|reflexivity].
  destruct (maskgroup_equal ord (snd p) v2) as [b|e]; cbn [bind]; [|reflexivity].
  destruct b; [exact IH|]. clear IH. induction k1 as [|q k1 IHk]; [reflexivity | exact IHk].
Qed.

Lemma foldM_false {A} (f : bool -> A -> res bool) l :
  (forall a, f false a = Ok false) -> foldM f l false = Ok false.
Proof. intros H; induction l as [|a l IH]; [reflexivity|]. cbn [foldM]. rewrite H. exact IH. Qed.

Lemma foldM_all {A} (g : A -> res bool) l (f := fun (s : bool) a => if s then g a else Ok false) :
  (forall a, In a l -> exists b, g a = Ok b) ->
  exists b, foldM f l true = Ok b /\ (b = true <-> forall a, In a l -> g a = Ok true).
Proof.
  induction l as [|a l IH]; intros H.
  - exists true; split; [reflexivity | split; [intros _ x [] | reflexivity]].
  - destruct (H a (or_introl eq_refl)) as (b & Hb). cbn [foldM]. unfold f at 1. rewrite Hb. cbn [bind].
    destruct b.
    + destruct IH as (b & H1 & H2); [intros x Hx; apply H; right; exact Hx|].
      exists b. split; [exact H1|]. rewrite H2. split.
      * intros H3 x [<-|Hx]; auto.
      * intros H3 x Hx; apply H3; right; exact Hx.
    + exists false. split; [apply foldM_false; reflexivity|].
      split; [discriminate|]. intros H3. specialize (H3 a (or_introl eq_refl)). congruence.
Qed.

Lemma Forall2_fst_eq (P : mask -> mask -> Prop) k1 k2 :
  Forall2 (fun p q => fst p = fst q /\ P (snd p) (snd q)) k1 k2 -> dkeys k1 = dkeys k2.
Proof. induction 1 as [|p q k1 k2 [H _] _ IH]; [reflexivity|]. unfold dkeys in *; simpl. congruence. Qed.

Lemma Forall2_dget (P : mask -> mask -> Prop) k1 k2 :
  dkeys k1 = dkeys k2 -> NoDup (dkeys k1) ->
  (Forall2 (fun p q => fst p = fst q /\ P (snd p) (snd q)) k1 k2 <->
   forall k v1 v2, dget k k1 = Some v1 -> dget k k2 = Some v2 -> P v1 v2).
Proof.
  revert k2; induction k1 as [|[k v] k1 IH]; intros [|[k' v'] k2] E ND; simpl in E; try discriminate.
  - split; [discriminate | constructor].
  - injection E as <- E. inversion ND as [|? ? Hn ND']; subst. split.
    + intros H; inversion H as [|? ? ? ? [_ H1] H2]; subst. intros s v1 v2 Hs1 Hs2. simpl in *.
      destruct (String.eqb s k); [congruence|]. eapply (proj1 (IH k2 E ND')); eauto.
    + intros H. constructor.
      * split; [reflexivity|]. apply (H k); simpl; rewrite String.eqb_refl; reflexivity.
      * apply (IH k2 E ND'). intros s v1 v2 Hs1 Hs2. apply (H s); simpl;
          (destruct (String.eqb_spec s k) as [->|_]; [exfalso; apply Hn|]); auto.
        -- apply dget_In in Hs1. apply (in_map fst) in Hs1. exact Hs1.
        -- apply dget_In in Hs1. apply (in_map fst) in Hs1. exact Hs1.
Qed.

(** Pick the entries of [k2] in the order of [ks]. *)
Lemma dict_reorder (ks : list string) (k2 : list (string * mask)) :
  NoDup ks -> NoDup (dkeys k2) -> (forall k, In k ks <-> In k (dkeys k2)) ->
  exists k2', Permutation k2 k2' /\ dkeys k2' = ks /\ (forall k, dget k k2' = dget k k2).
Proof.
  revert k2; induction ks as [|s ks IH]; intros k2 N1 N2 H.
  - destruct k2 as [|[k v] k2]; [exists []; auto|]. exfalso. apply (proj2 (H k)). left; reflexivity.
  - inversion N1 as [|? ? Hs N1']; subst.
    assert (Hin : In s (dkeys k2)) by (apply H; left; reflexivity).
    unfold dkeys in Hin. apply in_map_iff in Hin as ([s' v] & Es & Hin). simpl in Es. subst s'.
    assert (Hd : Permutation k2 ((s, v) :: ddel s k2)).
    { clear - Hin N2. induction k2 as [|[k w] k2 IH]; [destruct Hin|]. simpl.
      inversion N2 as [|? ? Hk N2']; subst.
      destruct (String.eqb_spec s k) as [->|Hsk].
      - destruct Hin as [E|Hin]; [injection E as ->; reflexivity|].
        exfalso; apply Hk. apply (in_map fst) in Hin. exact Hin.
      - destruct Hin as [E|Hin]; [injection E; congruence|].
        rewrite (IH N2' Hin) at 1. apply perm_swap. }
    destruct (IH (ddel s k2)) as (k2' & P1 & P2 & P3).
    + exact N1'.
    + apply ddel_NoDup; exact N2.
    + intros k. rewrite ddel_keys_In by exact N2. split.
      * intros Hk. split; [apply H; right; exact Hk | intros ->; contradiction].
      * intros [Hk Hne]. apply H in Hk as [E|Hk]; [congruence | exact Hk].
    + exists ((s, v) :: k2'). split; [rewrite Hd; apply perm_skip; exact P1|].
      split; [unfold dkeys in *; simpl; congruence|].
      intros k. simpl. destruct (String.eqb_spec k s) as [->|Hk].
      * symmetry. apply In_dget; assumption.
      * rewrite P3, dget_ddel by exact N2.
        destruct (String.eqb_spec k s); [contradiction | reflexivity].
Qed.

Lemma Permutation_dkeys (k2 k2' : list (string * mask)) k : Permutation k2 k2' -> NoDup (dkeys k2) -> dget k k2 = dget k k2'.
Proof.
  intros HP ND. assert (ND' : NoDup (dkeys k2')).
  { eapply Permutation_NoDup; [apply Permutation_map; exact HP | exact ND]. }
  destruct (dget k k2) as [v|] eqn:E.
  - apply dget_In in E. symmetry. apply In_dget; [exact ND'|]. eapply Permutation_in; eauto.
  - apply dget_None in E. symmetry. apply dget_None. intros H. apply E.
    eapply Permutation_in; [apply Permutation_map, Permutation_sym; exact HP | exact H].
Qed.

Lemma meq_correct ord m1 : forall m2, wf m1 -> wf m2 ->
  exists b, maskgroup_equal ord m1 m2 = Ok b /\ (b = true <-> same ord m1 m2).
Proof.
  induction m1 as [d1|a1 k1 IH] using mask_ind'; intros [d2|a2 k2] W1 W2.
  - exists (list_bool_eqb d1 d2). split; [reflexivity|]. rewrite list_bool_eqb_eq. split.
    + intros ->; constructor.
    + intros H; inversion H; reflexivity.
  - exists false. split; [reflexivity|]. split; [discriminate | intros H; inversion H].
  - exists false. split; [reflexivity|]. split; [discriminate | intros H; inversion H].
  - rewrite <- eq_grp. apply wf_grp in W1 as [N1 W1]. apply wf_grp in W2 as [N2 W2].
    rewrite Forall_forall in IH, W1, W2.
    set (c := (if ord then keys_eqb else keys_seteqb) (dkeys k1) (dkeys k2)).
    assert (Hset : c = true -> forall k, In k (dkeys k1) <-> In k (dkeys k2)).
    { unfold c. destruct ord; [|apply keys_seteqb_eq].
      intros E; apply keys_eqb_eq in E. rewrite E. tauto. }
    destruct c eqn:Ec; cbn [negb].
    + destruct (foldM_all (fun p => match dget (fst p) k2 with
                           | None => Err KeyError
                           | Some v2 => maskgroup_equal ord (snd p) v2
                           end) k1) as (b & Hb & Hbt).
      { intros [k v] Hkv. cbn [fst snd].
        destruct (dget k k2) as [v2|] eqn:Hg.
        - destruct (IH (k, v) Hkv v2 (W1 _ Hkv) (W2 _ (dget_In _ _ _ Hg))) as (b & Hb & _). eauto.
        - exfalso. apply dget_None in Hg. apply Hg, Hset; [reflexivity|].
          apply (in_map fst) in Hkv. exact Hkv. }
      exists b. split; [exact Hb|]. rewrite Hbt. clear b Hb Hbt.
      assert (Hpt : (forall p, In p k1 -> match dget (fst p) k2 with
                           | None => Err KeyError
                           | Some v2 => maskgroup_equal ord (snd p) v2
                           end = Ok true) <->
                    (forall k v1 v2, dget k k1 = Some v1 -> dget k k2 = Some v2 -> same ord v1 v2)).
      { split.
        - intros H k v1 v2 H1 H2. apply dget_In in H1. specialize (H (k, v1) H1). cbn [fst snd] in H.
          rewrite H2 in H. destruct (IH (k, v1) H1 v2 (W1 _ H1) (W2 _ (dget_In _ _ _ H2))) as (b & Hb & Hbt).
          cbn [snd] in Hb. apply Hbt. congruence.
        - intros H [k v1] Hkv. cbn [fst snd].
          destruct (dget k k2) as [v2|] eqn:Hg.
          + destruct (IH (k, v1) Hkv v2 (W1 _ Hkv) (W2 _ (dget_In _ _ _ Hg))) as (b & Hb & Hbt).
            cbn [snd] in Hb. rewrite Hb. f_equal. apply Hbt.
            apply (H k v1 v2); [apply In_dget; assumption | exact Hg].
          + exfalso. apply dget_None in Hg. apply Hg, Hset; [reflexivity|].
            apply (in_map fst) in Hkv. exact Hkv. }
      rewrite Hpt. clear Hpt. unfold c in Ec. clear c.
      destruct ord.
      * apply keys_eqb_eq in Ec. rewrite <- (Forall2_dget (same true) k1 k2 Ec N1).
        split; [intros H; constructor; exact H | intros H; inversion H; assumption].
      * split.
        -- intros H. destruct (dict_reorder (dkeys k1) k2 N1 N2 (Hset eq_refl)) as (k2' & P1 & P2 & P3).
           apply (S_set a1 a2 k1 k2 k2' P1). apply Forall2_dget; [congruence | exact N1|].
           intros k v1 v2 H1 H2. rewrite P3 in H2. eauto.
        -- intros H. inversion H as [| |? ? ? ? k2' HP HF]; subst.
           intros k v1 v2 H1 H2. rewrite (Permutation_dkeys _ _ k HP N2) in H2.
           pose proof (Forall2_fst_eq _ _ _ HF) as Hk.
           eapply (proj1 (Forall2_dget (same false) k1 k2' Hk N1)); eauto.
    + exists false. split; [reflexivity|]. split; [discriminate|]. intros H. exfalso.
      unfold c in Ec. inversion H as [|? ? ? ? HF|? ? ? ? k2' HP HF]; subst.
      * apply Forall2_fst_eq in HF. assert (keys_eqb (dkeys k1) (dkeys k2) = true) by (apply keys_eqb_eq; exact HF). congruence.
      * apply Forall2_fst_eq in HF. assert (keys_seteqb (dkeys k1) (dkeys k2) = true); [|congruence].
        apply keys_seteqb_eq. intros k. rewrite HF. unfold dkeys.
        split; apply Permutation_in; [apply Permutation_sym|]; apply Permutation_map; exact HP.
Qed.

Lemma same_refl ord m : same ord m m.
Proof.
  induction m as [d|agg kids IH] using mask_ind'; [constructor|].
  assert (H : Forall2 (fun p q => fst p = fst q /\ same ord (snd p) (snd q)) kids kids).
  { induction IH as [|p kids Hp _ IHk]; constructor; auto. }
  destruct ord; [constructor; exact H | econstructor; [apply Permutation_refl | exact H]].
Qed.

Lemma same_sym ord m1 : forall m2, same ord m1 m2 -> same ord m2 m1.
Proof.
  induction m1 as [d1|a1 k1 IH] using mask_ind'; intros m2 H; inversion H as [|? ? ? k2 HF|? ? ? k2 k2' HP HF]; subst.
  - constructor.
  - constructor. clear H. revert IH. induction HF as [|p q l r [E HS] HF IHF]; intros IH; constructor.
    + inversion IH; subst. split; [congruence | auto].
    + inversion IH; subst; auto.
  - assert (HF' : Forall2 (fun p q => fst p = fst q /\ same false (snd p) (snd q)) k2' k1).
    { clear HP H. revert IH. induction HF as [|p q l r [E HS] HF IHF]; intros IH; constructor.
      + inversion IH; subst. split; [congruence | auto].
      + inversion IH; subst; auto. }
    destruct (Permutation_Forall2 (Permutation_sym HP) HF') as (k1' & HP1 & HF1).
    econstructor; [exact HP1 | exact HF1].
Qed.

Lemma same_trans ord m1 : forall m2 m3, same ord m1 m2 -> same ord m2 m3 -> same ord m1 m3.
Proof.
  induction m1 as [d1|a1 k1 IH] using mask_ind'; intros m2 m3 H12 H23;
    inversion H12 as [|? ? ? k2 HF|? ? ? k2 k2' HP HF]; subst.
  - exact H23.
  - inversion H23 as [|? ? ? k3 HF3|]; subst. constructor. clear H12 H23.
    revert k3 HF3 IH. induction HF as [|p q l r [E HS] HF IHF]; intros k3 HF3 IH; inversion HF3 as [|? s ? k3' [E3 HS3] HF3']; subst; constructor.
    + inversion IH; subst. split; [congruence | eauto].
    + inversion IH; subst; eauto.
  - inversion H23 as [| |? ? ? k3 k3' HP3 HF3]; subst.
    destruct (Permutation_Forall2 HP HF3) as (k3'' & HP3' & HF3').
    apply (S_set a1 _ k1 k3 k3''); [rewrite HP3; exact HP3'|]. clear H12 H23 HP HP3 HP3' HF3.
    revert k3'' HF3' IH. induction HF as [|p q l r [E HS] HF IHF]; intros k3'' HF3 IH; inversion HF3 as [|? s ? k4 [E3 HS3] HF3']; subst; constructor.
    + inversion IH; subst. split; [congruence | eauto].
    + inversion IH; subst; eauto.
Qed.

(* ---------------------------------------------------------------- *)
(** * serialize *)

(** The tree with every agg_op replaced by 'and'. *)
Fixpoint all_and (m : mask) : mask :=
  match m with
  | MArr d => MArr d
  | MGrp _ kids => MGrp "and" (map (fun p => (fst p, all_and (snd p))) kids)
  end.

Lemma of_ser_serialize m : wf m -> of_ser (serialize m) = all_and m.
Proof.
  induction m as [d|agg kids IH] using mask_ind'; intros W; [reflexivity|].
  apply wf_grp in W as [ND W]. cbn [serialize of_ser all_and]. f_equal.
  rewrite map_map. cbn [fst snd].
  assert (E : map (fun p => (fst p, of_ser (serialize (snd p)))) kids
              = map (fun p => (fst p, all_and (snd p))) kids).
  { apply map_ext_in. intros p Hp. rewrite Forall_forall in IH, W. rewrite IH; auto. }
  rewrite E. apply dict_of_NoDup. rewrite dkeys_map. exact ND.
Qed.

Lemma same_all_and ord m : same ord m (all_and m).
Proof.
  induction m as [d|agg kids IH] using mask_ind'; [constructor|]. cbn [all_and].
  assert (H : Forall2 (fun p q => fst p = fst q /\ same ord (snd p) (snd q)) kids
                (map (fun p => (fst p, all_and (snd p))) kids)).
  { induction IH as [|p kids Hp _ IHk]; constructor; auto. }
  destruct ord; [constructor; exact H | econstructor; [apply Permutation_refl | exact H]].
Qed.

Lemma all_and_wf m : wf m -> wf (all_and m).
Proof.
  induction m as [d|agg kids IH] using mask_ind'; intros W; [exact I|].
  apply wf_grp in W as [ND W]. cbn [all_and]. apply wf_grp. rewrite dkeys_map. split; [exact ND|].
  apply Forall_forall. intros p Hp. apply in_map_iff in Hp as (q & <- & Hq).
  rewrite Forall_forall in IH, W. simpl. auto.
Qed.

Lemma all_and_at_path m : forall p, at_path (all_and m) p = option_map all_and (at_path m p).
Proof.
  induction m as [d|agg kids IH] using mask_ind'; intros [|k p]; try reflexivity.
  cbn [all_and at_path]. rewrite dget_map. destruct (dget k kids) as [v|] eqn:E; [|reflexivity].
  apply dget_In in E. rewrite Forall_forall in IH. apply (IH _ E).
Qed.

Lemma all_and_level m :
  level (all_and m) = match level m with inl d => inl d | inr (_, ks) => inr ("and"%string, ks) end.
Proof. destruct m as [d|agg kids]; [reflexivity|]. cbn [all_and level]. rewrite dkeys_map. reflexivity. Qed.


Lemma all_and_data m : only_and m -> data (all_and m) = data m.
Proof.
  induction m as [d|agg kids IH] using mask_ind'; intros H; [reflexivity|].
  inversion H as [|? ? Hm Hk]; subst. cbn [all_and data].
  apply agg_op_means in Hm. rewrite Hm. cbn [bind]. rewrite mapM_map. cbn [snd].
  change (agg_op "and") with (@Ok aggop AND). cbn [bind].
  rewrite (mapM_ext (fun x => data (all_and (snd x))) (fun p => data (snd p))); [reflexivity|].
  intros [k v] Hkv. rewrite Forall_forall in IH. apply (IH _ Hkv). eapply Hk; exact Hkv.
Qed.

(* ---------------------------------------------------------------- *)
(** * ordered map *)

Definition omap_rel (s : omap) (kids : list (string * mask)) : Prop :=
  NoDup (dkeys kids) /\ o_order s = dkeys kids /\ forall k, o_val s k = dget k kids.

Lemma step_refines s kids o :
  omap_rel s kids ->
  snd (model_step kids o) = snd (spec_step s o) /\ omap_rel (fst (spec_step s o)) (fst (model_step kids o)).
Proof.
  intros (ND & HO & HV). destruct o as [k m|k|k|k| |]; cbn [model_step spec_step].
  - split; [reflexivity|]. cbn [fst]. split; [apply dset_NoDup; exact ND|]. cbn [o_order o_val]. split.
    + rewrite dset_keys, HO. rewrite HV. destruct (dget k kids) as [v|] eqn:E.
      * replace (existsb (String.eqb k) (dkeys kids)) with true; [reflexivity|].
        symmetry; apply existsb_eqb_In. apply dget_In in E. apply (in_map fst) in E. exact E.
      * replace (existsb (String.eqb k) (dkeys kids)) with false; [reflexivity|].
        symmetry. apply dget_None in E. destruct (existsb _ _) eqn:E2; [|reflexivity].
        exfalso; apply E, existsb_eqb_In, E2.
    + intros k'. rewrite dget_dset. rewrite HV. reflexivity.
  - rewrite HV. destruct (dget k kids) as [v|] eqn:E; cbn [fst snd].
    + split; [reflexivity|]. split; [apply ddel_NoDup; exact ND|]. cbn [o_order o_val]. split.
      * rewrite ddel_filter by exact ND. rewrite HO. unfold dkeys.
        clear. induction kids as [|[k' v'] kids IH]; [reflexivity|]. simpl.
        destruct (negb (k' =? k)%string); simpl; rewrite IH; reflexivity.
      * intros k'. rewrite dget_ddel by exact ND. rewrite HV. reflexivity.
    + split; [reflexivity|]. repeat split; assumption.
  - cbn [fst snd]. rewrite HV. split; [reflexivity | repeat split; assumption].
  - cbn [fst snd]. rewrite HV. split; [reflexivity | repeat split; assumption].
  - cbn [fst snd]. rewrite HO. unfold dkeys. rewrite map_length. split; [reflexivity | repeat split; assumption].
  - cbn [fst snd]. rewrite HO. split; [reflexivity | repeat split; assumption].
Qed.

Lemma run_refines ops : forall s kids, omap_rel s kids ->
  snd (run_model kids ops) = snd (run_spec s ops) /\ omap_rel (fst (run_spec s ops)) (fst (run_model kids ops)).
Proof.
  induction ops as [|o ops IH]; intros s kids H; [split; [reflexivity | exact H]|].
  cbn [run_model run_spec]. destruct (step_refines s kids o H) as [H1 H2].
  destruct (model_step kids o) as [kids1 x], (spec_step s o) as [s1 y]. cbn [fst snd] in *. subst y.
  destruct (IH s1 kids1 H2) as [H3 H4].
  destruct (run_model kids1 ops), (run_spec s1 ops). cbn [fst snd] in *. split; [congruence | exact H4].
Qed.

(** Selecting a list of names. *)
Lemma select_keys_ok ks agg kids :
  NoDup ks -> (forall k, In k ks -> In k (dkeys kids)) ->
  exists l, select_keys ks agg kids = Ok (MGrp agg l) /\ dkeys l = ks /\
            forall k, In k ks -> dget k l = dget k kids.
Proof.
  intros ND H. unfold select_keys.
  assert (Hm : exists l, mapM (fun k => match dget k kids with Some v => Ok (k, v) | None => Err KeyError end) ks = Ok l
                         /\ dkeys l = ks /\ (forall k v, In (k, v) l -> dget k kids = Some v)).
  { clear ND. induction ks as [|k ks IH]; [exists []; repeat split; intros ? ? []|].
    destruct IH as (l & H1 & H2 & H3); [intros k' Hk'; apply H; right; exact Hk'|].
    destruct (dget k kids) as [v|] eqn:E.
    - exists ((k, v) :: l). cbn [mapM]. rewrite E. cbn [bind]. rewrite H1. cbn [bind].
      split; [reflexivity|]. split; [unfold dkeys in *; simpl; congruence|].
      intros k' v' [E'|E']; [injection E' as <- <-; exact E | auto].
    - exfalso. apply dget_None in E. apply E, H. left; reflexivity. }
  destruct Hm as (l & H1 & H2 & H3). exists l. rewrite H1. cbn [bind].
  assert (NDl : NoDup (dkeys l)) by (rewrite H2; exact ND).
  rewrite dict_of_NoDup by exact NDl. split; [reflexivity|]. split; [exact H2|].
  intros k Hk. rewrite <- H2 in Hk. unfold dkeys in Hk. apply in_map_iff in Hk as ([k' v] & <- & Hk).
  cbn [fst]. rewrite (H3 _ _ Hk). apply In_dget; assumption.
Qed.

Lemma select_keys_err ks agg kids k :
  In k ks -> ~ In k (dkeys kids) -> select_keys ks agg kids = Err KeyError.
Proof.
  intros Hk Hn. unfold select_keys.
  assert (E : mapM (fun k => match dget k kids with Some v => Ok (k, v) | None => Err KeyError end) ks = Err KeyError).
  { induction ks as [|k' ks IH]; [destruct Hk|]. cbn [mapM].
    destruct (dget k' kids) as [v|] eqn:E; [|reflexivity]. cbn [bind].
    destruct Hk as [->|Hk]; [exfalso; apply Hn; apply dget_In in E; apply (in_map fst) in E; exact E|].
    rewrite IH by exact Hk. reflexivity. }
  rewrite E. reflexivity.
Qed.
