(** Lemmas about clusters. *)
From Verif Require Import Prelude Dict Keys MaskTypes SpecMask Mask MaskProofs P_Mask SpecAdj SpecArray SpecPart SpecHard SpecHier Arrays ArraysProofs Adjacency AdjacencyProofs Descend DescendProofs Hard HardProofs Hierarchy HierProofs TreeProofs HierEvent HierMain HierOrder Partition PartProofs SpecSelect SelectMisc P_Hier P_Part P_Select SpecReal RealBase Kinem KinemProofs Coords P_Coords SpecClusters Clusters.
Close Scope R_scope.
Open Scope nat_scope.

Lemma NoDup_app_intro {A} (l r : list A) : NoDup l -> NoDup r -> (forall x, In x l -> ~ In x r) -> NoDup (l ++ r).
Proof.
  induction 1 as [|x l H1 H2 IH]; intros HR HD; [exact HR|]. cbn. constructor.
  - rewrite in_app_iff. intros [F|F]; [contradiction | exact (HD x (or_introl eq_refl) F)].
  - apply IH; [exact HR|]. intros y Hy. apply HD. right; exact Hy.
Qed.
Lemma filter_true_id {A} (f : A -> bool) l : (forall x, In x l -> f x = true) -> filter f l = l.
Proof. induction l as [|x r IH]; intros H; [reflexivity|]. cbn. rewrite H by (left; reflexivity). f_equal. apply IH. intros; apply H; right; auto. Qed.
Lemma last_name_app p k q : last_name (p ++ k :: q) = last_name (k :: q).
Proof. induction p as [|x p IH]; [reflexivity|]. cbn [app]. rewrite last_name_cons; [exact IH|]. destruct p; discriminate. Qed.
Lemma last_name_join p q : p <> [] -> last_name (last_name p :: q) = last_name (p ++ q).
Proof. intros H. destruct q as [|x q]; [rewrite app_nil_r; reflexivity|]. rewrite last_name_app, last_name_cons by discriminate. reflexivity. Qed.

(** ** Paths only depend on the skeleton *)
Definition paths (m : mask) : list (list string) := map fst (entries m).
Lemma paths_grp agg kids : paths (MGrp agg kids) = flat_map (fun p => [fst p] :: map (cons (fst p)) (paths (snd p))) kids.
Proof.
  unfold paths. cbn [entries]. induction kids as [|p r IH]; [reflexivity|]. cbn [flat_map]. rewrite map_app, IH. cbn [map fst]. rewrite !map_map. reflexivity.
Qed.
Lemma paths_skeleton m : paths (skeleton m) = paths m.
Proof.
  induction m as [d|agg kids IH] using mask_ind'; [reflexivity|]. cbn [skeleton]. rewrite !paths_grp.
  induction IH as [|p r Hp Hr IHr]; [reflexivity|]. cbn [map flat_map fst snd]. rewrite Hp, IHr. reflexivity.
Qed.
Lemma has_In k p : has k p = true <-> In k p.
Proof. unfold has. apply existsb_eqb_In. Qed.
Lemma has_notIn k p : has k p = false <-> ~ In k p.
Proof. rewrite <- has_In. destruct (has k p); split; congruence. Qed.
Lemma paths_drop m : wf m -> paths (recursive_drop "latent" m) = filter (fun p => negb (has "latent" p)) (paths m).
Proof.
  induction m as [d|agg kids IH] using mask_ind'; [reflexivity|]. intros W. apply wf_grp in W as [ND W]. cbn [recursive_drop]. rewrite !paths_grp.
  rewrite ddel_filter by (unfold dkeys; rewrite map_map; exact ND). clear ND.
  induction IH as [|[k v] r Hp Hr IHr]; [reflexivity|]. inversion W as [|? ? W1 W2]; subst. specialize (IHr W2). specialize (Hp W1). cbn [map filter fst snd flat_map]. rewrite filter_app. cbn [filter has existsb].
  rewrite (String.eqb_sym "latent" k). destruct (String.eqb k "latent") eqn:Ek; cbn [orb negb].
  - rewrite <- IHr. replace (filter _ (map (cons k) (paths v))) with (@nil (list string)); [reflexivity|]. symmetry. apply MaskProofs.filter_none. intros q Hq. apply in_map_iff in Hq as (q' & <- & _).
    cbn [has existsb]. rewrite (String.eqb_sym "latent" k), Ek. reflexivity.
  - cbn [flat_map fst snd]. rewrite IHr. f_equal. f_equal. cbn [snd] in Hp. rewrite Hp. clear - Ek. induction (paths v) as [|q l IH]; [reflexivity|].
    cbn [map filter]. assert (E : has "latent" (k :: q) = has "latent" q) by (cbn [has existsb]; rewrite (String.eqb_sym "latent" k), Ek; reflexivity).
    rewrite E. destruct (has "latent" q); cbn [negb map]; rewrite IH; reflexivity.
Qed.
Lemma entries_paths m p : wf m -> (In p (paths m) <-> p <> [] /\ at_path m p <> None).
Proof.
  intros W. unfold paths. rewrite in_map_iff. split.
  - intros ([q v] & <- & H). apply entries_at_path in H as [A B]; [|exact W]. cbn. split; [exact A | congruence].
  - intros [A B]. destruct (at_path m p) as [v|] eqn:E; [|congruence]. exists (p, v). split; [reflexivity|]. apply entries_at_path; auto.
Qed.
Lemma paths_NoDup m : wf m -> NoDup (paths m).
Proof.
  induction m as [d|agg kids IH] using mask_ind'; intros W; [constructor|]. rewrite paths_grp. apply wf_grp in W as [ND W].
  induction IH as [|[k v] r Hp Hr IHr]; [constructor|]. inversion W as [|? ? W1 W2]; subst. inversion ND as [|? ? N1 N2]; subst. cbn [flat_map fst snd].
  assert (G : forall q, In q (flat_map (fun p => [fst p] :: map (cons (fst p)) (paths (snd p))) r) -> exists k' q', q = k' :: q' /\ In k' (dkeys r)).
  { intros q Hq. apply in_flat_map in Hq as ([k' v'] & H1 & H2). cbn in H2. exists k'. destruct H2 as [<-|H2]; [exists []|apply in_map_iff in H2 as (q' & <- & _); exists q']; (split; [reflexivity|]; apply (in_map fst) in H1; exact H1). }
  cbn [app]. constructor.
  - rewrite in_app_iff. intros [H|H].
    + apply in_map_iff in H as (q & E & H). injection E as ->. apply (entries_paths v) in H as [H _]; [congruence | exact W1].
    + apply G in H as (k' & q' & E & H). injection E as <- _. contradiction.
  - apply NoDup_app_intro.
    + apply map_NoDup_in; [intros a b _ _ E; congruence | apply Hp; exact W1].
    + apply IHr; assumption.
    + intros q H1 H2. apply in_map_iff in H1 as (q1 & <- & _). apply G in H2 as (k' & q' & E & H). injection E as <- _. contradiction.
Qed.

(** ** Rewriting every leaf by a function of its name *)
Fixpoint upd (g : string -> list bool -> list bool) (k : string) (m : mask) : mask :=
  match m with
  | MArr d => MArr (g k d)
  | MGrp agg kids => MGrp agg (map (fun p => if String.eqb (fst p) "latent" then p else (fst p, upd g (fst p) (snd p))) kids)
  end.
Definition upd_kids g (kids : list (string * mask)) := map (fun p => (fst p, upd g (fst p) (snd p))) kids.

Lemma upd_comp f g m : forall k, upd g k (upd f k m) = upd (fun k d => g k (f k d)) k m.
Proof.
  induction m as [d|agg kids IH] using mask_ind'; intros k; [reflexivity|]. cbn [upd]. f_equal. rewrite map_map.
  induction IH as [|[k' v] r Hp Hr IHr]; [reflexivity|]. cbn [map]. rewrite IHr. f_equal. cbn [fst snd].
  destruct (String.eqb k' "latent") eqn:E; cbn [fst snd]; rewrite E; [reflexivity|]. rewrite Hp. reflexivity.
Qed.
Lemma upd_kids_comp f g kids : upd_kids g (upd_kids f kids) = upd_kids (fun k d => g k (f k d)) kids.
Proof. unfold upd_kids. rewrite map_map. apply map_ext. intros [k v]. cbn. rewrite upd_comp. reflexivity. Qed.
Lemma upd_id m : forall k, upd (fun _ d => d) k m = m.
Proof.
  induction m as [d|agg kids IH] using mask_ind'; intros k; [reflexivity|]. cbn [upd]. f_equal.
  induction IH as [|[k' v] r Hp Hr IHr]; [reflexivity|]. cbn [map]. rewrite IHr. f_equal. cbn [fst snd]. rewrite Hp. destruct (String.eqb k' "latent"); reflexivity.
Qed.
Lemma upd_kids_id kids : upd_kids (fun _ d => d) kids = kids.
Proof. unfold upd_kids. rewrite <- (map_id kids) at 2. apply map_ext. intros [k v]. cbn. rewrite upd_id. reflexivity. Qed.
Lemma upd_ext f g m : (forall k d, f k d = g k d) -> forall k, upd f k m = upd g k m.
Proof.
  intros H. induction m as [d|agg kids IH] using mask_ind'; intros k; cbn [upd]; [rewrite H; reflexivity|]. f_equal.
  induction IH as [|[k' v] r Hp Hr IHr]; [reflexivity|]. cbn [map]. rewrite IHr. f_equal. cbn [fst snd]. rewrite Hp. reflexivity.
Qed.
Lemma upd_kids_ext f g kids : (forall k d, f k d = g k d) -> upd_kids f kids = upd_kids g kids.
Proof. intros H. unfold upd_kids. apply map_ext. intros [k v]. cbn. rewrite (upd_ext f g v H). reflexivity. Qed.
Lemma write_upd key d' m : forall k, write_leaf key d' k m = upd (fun k d => if String.eqb k key then d' else d) k m.
Proof.
  induction m as [d|agg kids IH] using mask_ind'; intros k; [reflexivity|]. cbn [upd write_leaf]. f_equal.
  induction IH as [|[k' v] r Hp Hr IHr]; [reflexivity|]. cbn [map]. rewrite IHr. f_equal. cbn [fst snd]. rewrite Hp. reflexivity.
Qed.
Lemma write_kids_upd key d' kids : write_kids key d' kids = upd_kids (fun k d => if String.eqb k key then d' else d) kids.
Proof. unfold write_kids, upd_kids. apply map_ext. intros [k v]. cbn. rewrite write_upd. reflexivity. Qed.

Lemma upd_skel g m : forall k, skeleton (upd g k m) = skeleton m.
Proof.
  induction m as [d|agg kids IH] using mask_ind'; intros k; [reflexivity|]. cbn [upd skeleton]. f_equal. rewrite map_map.
  induction IH as [|[k' v] r Hp Hr IHr]; [reflexivity|]. cbn [map]. rewrite IHr. f_equal. cbn [fst snd]. destruct (String.eqb k' "latent"); cbn [fst snd]; [reflexivity|]. rewrite Hp. reflexivity.
Qed.
Lemma upd_kids_skel g agg kids : skeleton (MGrp agg (upd_kids g kids)) = skeleton (MGrp agg kids).
Proof. cbn [skeleton]. f_equal. unfold upd_kids. rewrite map_map. apply map_ext. intros [k v]. cbn. rewrite upd_skel. reflexivity. Qed.
Lemma dkeys_skel kids kids' : map (fun p => (fst p, skeleton (snd p))) kids = map (fun p => (fst p, skeleton (snd p))) kids' -> dkeys kids = dkeys kids'.
Proof. intros H. apply (f_equal (map fst)) in H. rewrite !map_map in H. exact H. Qed.
Lemma wf_skel m : forall m', skeleton m = skeleton m' -> wf m -> wf m'.
Proof.
  induction m as [d|agg kids IH] using mask_ind'; intros [d'|agg' kids'] E W; cbn in E; try discriminate; [exact I|]. injection E as -> E.
  apply wf_grp in W as [ND W]. apply wf_grp. split; [rewrite <- (dkeys_skel _ _ E); exact ND|]. clear ND. revert kids' E. induction IH as [|p r Hp Hr IHr]; intros [|q r'] E; try discriminate; constructor.
  - injection E as E1 E2 E3. inversion W; subst. exact (Hp _ E2 H1).
  - injection E as E1 E2 E3. inversion W; subst. apply IHr; assumption.
Qed.

Lemma upd_at g m : forall k p, ~ In "latent"%string p -> at_path (upd g k m) p = option_map (upd g (last_name (k :: p))) (at_path m p).
Proof.
  induction m as [d|agg kids IH] using mask_ind'; intros k [|k' p] HN; try reflexivity. cbn [upd at_path].
  replace (last_name (k :: k' :: p)) with (last_name (k' :: p)) by reflexivity.
  induction IH as [|[k1 v] r Hp Hr IHr]; [reflexivity|]. cbn [map dget fst snd].
  destruct (String.eqb k1 "latent") eqn:E1.
  - apply String.eqb_eq in E1. subst k1. cbn [dget]. destruct (String.eqb k' "latent") eqn:E2; [|exact IHr]. apply String.eqb_eq in E2. subst k'. exfalso. apply HN. left; reflexivity.
  - cbn [dget]. destruct (String.eqb k' k1) eqn:E2; [|exact IHr]. apply String.eqb_eq in E2. subst k1. cbn [fst snd] in *. apply Hp. intros H. apply HN. right; exact H.
Qed.
Lemma upd_kids_at g agg kids p : p <> [] -> ~ In "latent"%string p ->
  at_path (MGrp agg (upd_kids g kids)) p = option_map (upd g (last_name p)) (at_path (MGrp agg kids) p).
Proof.
  destruct p as [|k p]; [congruence|]. intros _ HN. cbn [at_path]. unfold upd_kids. induction kids as [|[k1 v] r IH]; [reflexivity|]. cbn [map dget fst snd].
  destruct (String.eqb k k1) eqn:E; [|exact IH]. apply String.eqb_eq in E. subst k1. apply upd_at. intros H; apply HN; right; exact H.
Qed.

(** ** Trees of 'or' groups, each with a child that is not 'latent' *)
Inductive good (n : nat) : mask -> Prop :=
| G_arr d : length d = n -> good n (MArr d)
| G_grp agg kids : means agg OR -> (exists k w, In (k, w) kids /\ k <> "latent"%string) ->
    (forall k w, In (k, w) kids -> k <> "latent"%string -> good n w) -> good n (MGrp agg kids).

Lemma drop_kids_In kids k w : NoDup (dkeys kids) ->
  (In (k, w) (ddel "latent" (map (fun p : string * mask => (fst p, recursive_drop "latent" (snd p))) kids)) <->
   k <> "latent"%string /\ exists v, In (k, v) kids /\ w = recursive_drop "latent" v).
Proof.
  intros ND. rewrite ddel_filter by (unfold dkeys; rewrite map_map; exact ND). rewrite filter_In, in_map_iff. cbn [fst]. split.
  - intros (([k1 v] & E & H) & HL). injection E as -> <-. split; [|eauto]. intros ->. discriminate.
  - intros (HL & v & H & ->). split; [exists (k, v); auto|]. apply negb_true_iff, String.eqb_neq. exact HL.
Qed.

Lemma upd_In g kids k w : In (k, w) (map (fun p => if String.eqb (fst p) "latent" then p else (fst p, upd g (fst p) (snd p))) kids) -> k <> "latent"%string ->
  exists v, In (k, v) kids /\ w = upd g k v.
Proof.
  intros H HL. apply in_map_iff in H as ([k1 v] & E & H). cbn [fst snd] in E. destruct (String.eqb k1 "latent") eqn:E1; injection E as -> <-; [apply String.eqb_eq in E1; contradiction | eauto].
Qed.
Lemma upd_In' g kids k v : In (k, v) kids -> k <> "latent"%string -> In (k, upd g k v) (map (fun p => if String.eqb (fst p) "latent" then p else (fst p, upd g (fst p) (snd p))) kids).
Proof. intros H HL. apply in_map_iff. exists (k, v). split; [|exact H]. cbn [fst snd]. apply String.eqb_neq in HL. rewrite HL. reflexivity. Qed.
Lemma upd_keys g (kids : list (string * mask)) : dkeys (map (fun p => if String.eqb (fst p) "latent" then p else (fst p, upd g (fst p) (snd p))) kids) = dkeys kids.
Proof. unfold dkeys. rewrite map_map. apply map_ext. intros [k v]. cbn [fst snd]. destruct (String.eqb k "latent"); reflexivity. Qed.

Section Good.
  Context (n : nat) (g : string -> list bool -> list bool) (Hg : forall k d, length d = n -> length (g k d) = n).

  Lemma good_agg m : good n m -> forall k, wf m -> aggregable n (recursive_drop "latent" (upd g k m)).
  Proof using Hg.
    induction m as [d|agg kids IH] using mask_ind'; intros G k W.
    - inversion G; subst. constructor. apply Hg; auto.
    - inversion G as [|? ? HO (k0 & w0 & I0 & L0) HK]; subst. apply wf_grp in W as [ND W]. cbn [upd recursive_drop].
      assert (ND' : NoDup (dkeys (map (fun p => if String.eqb (fst p) "latent" then p else (fst p, upd g (fst p) (snd p))) kids))) by (rewrite upd_keys; exact ND).
      constructor; [right; exact HO| |].
      + intros E. assert (F : In (k0, recursive_drop "latent" (upd g k0 w0)) []); [|destruct F]. rewrite <- E. apply drop_kids_In; [exact ND'|].
        split; [exact L0|]. exists (upd g k0 w0). split; [|reflexivity]. apply upd_In'; assumption.
      + intros k1 w H. apply drop_kids_In in H as (HL & v & H & ->); [|exact ND']. apply upd_In in H as (v0 & H & ->); [|exact HL].
        rewrite Forall_forall in IH, W. apply (IH (k1, v0) H); [eapply HK; eauto | exact (W _ H)].
  Qed.

  Lemma good_true i m : good n m -> forall k, wf m ->
    (true_at i (recursive_drop "latent" (upd g k m)) <->
     exists q d, at_path m q = Some (MArr d) /\ ~ In "latent"%string q /\ nth_error (g (last_name (k :: q)) d) i = Some true).
  Proof using Hg.
    induction m as [d|agg kids IH] using mask_ind'; intros G k W.
    - cbn [upd recursive_drop]. split.
      + intros H. inversion H; subst. exists [], d. repeat split; auto.
      + intros ([|x q] & d0 & E & _ & H); [|discriminate]. cbn in E. injection E as <-. constructor. exact H.
    - inversion G as [|? ? HO _ HK]; subst. pose proof W as W0. apply wf_grp in W as [ND W]. cbn [upd recursive_drop].
      assert (ND' : NoDup (dkeys (map (fun p => if String.eqb (fst p) "latent" then p else (fst p, upd g (fst p) (snd p))) kids))) by (rewrite upd_keys; exact ND).
      rewrite Forall_forall in IH, W. split.
      + intros H. inversion H as [|? ? HA _|? ? k1 w _ HI HT]; subst; [pose proof (means_fun _ _ _ HA HO); discriminate|].
        apply drop_kids_In in HI as (HL & v & HI & ->); [|exact ND']. apply upd_In in HI as (v0 & HI & ->); [|exact HL].
        apply (IH (k1, v0) HI) in HT as (q & d & E & HN & HT); [|eapply HK; eauto|exact (W _ HI)]. exists (k1 :: q), d. cbn [at_path]. rewrite (In_dget _ _ _ ND HI).
        split; [exact E|]. split; [intros [F|F]; [congruence|exact (HN F)]|]. exact HT.
      + intros ([|k1 q] & d & E & HN & HT); [discriminate|]. cbn [at_path] in E. destruct (dget k1 kids) as [v0|] eqn:E1; [|discriminate]. apply dget_In in E1.
        assert (HL : k1 <> "latent"%string) by (intros ->; apply HN; left; reflexivity).
        apply (T_or i agg _ k1 (recursive_drop "latent" (upd g k1 v0))); [exact HO| |].
        * apply drop_kids_In; [exact ND'|]. split; [exact HL|]. exists (upd g k1 v0). split; [|reflexivity]. apply upd_In'; assumption.
        * apply (IH (k1, v0) E1); [eapply HK; eauto|exact (W _ E1)|]. exists q, d. split; [exact E|]. split; [intros F; apply HN; right; exact F|]. exact HT.
  Qed.

  Lemma good_at m : good n m -> forall p v, ~ In "latent"%string p -> at_path m p = Some v -> good n v.
  Proof using.
    intros G p. revert m G. induction p as [|k p IH]; intros m G v HN E; [cbn in E; congruence|]. destruct m as [d|agg kids]; [discriminate|]. cbn [at_path] in E.
    destruct (dget k kids) as [w|] eqn:Ew; [|discriminate]. apply (IH w); [|intros F; apply HN; right; exact F|exact E]. inversion G as [|? ? _ _ HK]; subst. apply (HK k); [apply dget_In; exact Ew|]. intros ->. apply HN. left; reflexivity.
  Qed.
  Lemma wf_at m : wf m -> forall p v, at_path m p = Some v -> wf v.
  Proof using.
    intros W p. revert m W. induction p as [|k p IH]; intros m W v E; [cbn in E; congruence|]. destruct m as [d|agg kids]; [discriminate|]. cbn [at_path] in E.
    destruct (dget k kids) as [w|] eqn:Ew; [|discriminate]. apply (IH w); [|exact E]. apply wf_grp in W as [_ W]. rewrite Forall_forall in W. exact (W _ (dget_In _ _ _ Ew)).
  Qed.

  (** The tail of clusters after the leaves were rewritten. *)
  Lemma finish agg kids :
    good n (MGrp agg kids) -> wf (MGrp agg kids) -> means agg OR ->
    NoDup (map last_name (filter (fun p => negb (has "latent" p)) (paths (MGrp agg kids)))) ->
    exists agg' out, flatten_rise (recursive_drop "latent" (MGrp agg (upd_kids g kids))) = Ok (MGrp agg' out) /\
      dkeys out = map last_name (filter (fun p => negb (has "latent" p)) (paths (MGrp agg kids))) /\
      (forall k v, In (k, v) out -> exists d, v = MArr d /\ length d = n) /\
      forall p v, p <> [] -> ~ In "latent"%string p -> at_path (MGrp agg kids) p = Some v ->
        exists d, dget (last_name p) out = Some (MArr d) /\ length d = n /\
          (forall d0, v = MArr d0 -> d = g (last_name p) d0) /\
          forall i, nth_error d i = Some true <->
            exists q d0, at_path v q = Some (MArr d0) /\ ~ In "latent"%string q /\ nth_error (g (last_name (p ++ q)) d0) i = Some true.
  Proof using Hg.
    intros G W HO ND. set (t2 := MGrp agg (upd_kids g kids)). set (t3 := recursive_drop "latent" t2).
    assert (W2 : wf t2) by (eapply wf_skel; [symmetry; apply upd_kids_skel | exact W]). assert (W3 : wf t3) by (apply rdrop_wf; exact W2).
    assert (P3 : paths t3 = filter (fun p => negb (has "latent" p)) (paths (MGrp agg kids))).
    { unfold t3. rewrite paths_drop by exact W2. f_equal. rewrite <- (paths_skeleton t2), <- (paths_skeleton (MGrp agg kids)). f_equal. apply upd_kids_skel. }
    assert (AT : forall p v, p <> [] -> ~ In "latent"%string p -> at_path (MGrp agg kids) p = Some v -> at_path t3 p = Some (recursive_drop "latent" (upd g (last_name p) v))).
    { intros p v Hp HN E. unfold t3. rewrite rdrop_at_path by assumption. unfold t2. rewrite upd_kids_at by assumption. rewrite E. reflexivity. }
    assert (E3 : forall p w, In (p, w) (entries t3) -> p <> [] /\ ~ In "latent"%string p /\ exists v, at_path (MGrp agg kids) p = Some v /\ w = recursive_drop "latent" (upd g (last_name p) v) /\ exists d, data w = Ok d /\ length d = n).
    { intros p w H. assert (In p (paths t3)) by (apply (in_map fst) in H; exact H). rewrite P3 in H0. apply filter_In in H0 as [H0 HL]. apply negb_true_iff, has_notIn in HL.
      apply entries_paths in H0 as [Hp Hx]; [|exact W]. destruct (at_path (MGrp agg kids) p) as [v|] eqn:E; [|congruence]. apply entries_at_path in H as [_ H]; [|exact W3].
      rewrite (AT p v Hp HL E) in H. injection H as <-. split; [exact Hp|]. split; [exact HL|]. exists v. split; [reflexivity|]. split; [reflexivity|]. apply data_complete. apply good_agg; [exact (good_at _ G p v HL E) | exact (wf_at _ W p v E)]. }
    assert (FR : filter risen (entries t3) = entries t3).
    { apply filter_true_id. intros [p w] H. apply E3 in H as (_ & HL & _). unfold risen. cbn [fst]. apply has_notIn in HL. rewrite HL. reflexivity. }
    assert (ET : exists k3, t3 = MGrp agg k3) by (unfold t3, t2; cbn [recursive_drop]; eauto). destruct ET as (k3 & ET).
    destruct (C04_flatten_rise agg k3 OR HO) as (agg' & out & HF & _ & HQ).
    - rewrite <- ET, FR. replace (map (fun e : list string * mask => last_name (fst e)) (entries t3)) with (map last_name (paths t3)) by (unfold paths; rewrite map_map; reflexivity). rewrite P3. exact ND.
    - rewrite <- ET, FR. intros p w H. apply E3 in H as (_ & _ & v & _ & _ & d & Hd & _). eauto.
    - rewrite <- ET in HF, HQ. rewrite FR in HQ.
      assert (DK : dkeys out = map last_name (paths t3)).
      { unfold paths. clear - HQ. induction HQ as [|e r l l' (E & _) HQ IH]; cbn; [reflexivity|]. rewrite E. f_equal. exact IH. }
      exists agg', out. split; [exact HF|]. split; [rewrite DK, P3; reflexivity|]. split.
      + intros k v H. destruct (Forall2_In_r _ _ _ _ HQ H) as ([p w] & Hin & (_ & d & Hd & E)). cbn in E. subst v. exists d. split; [reflexivity|].
        apply E3 in Hin as (_ & _ & v & _ & _ & d' & Hd' & L). cbn in Hd. congruence.
      + intros p v Hp HN E. pose proof (AT p v Hp HN E) as A3.
        assert (Hin : In (p, recursive_drop "latent" (upd g (last_name p) v)) (entries t3)) by (apply entries_at_path; auto).
        destruct (Forall2_In_l _ _ _ _ HQ Hin) as ([k w] & Hw & (E1 & d & Hd & E2)). cbn [fst snd] in *. subst k w.
        exists d. split; [apply In_dget; [rewrite DK, P3; exact ND | exact Hw]|].
        pose proof (good_at _ G p v HN E) as Gv. pose proof (wf_at _ W p v E) as Wv.
        destruct (data_sound _ _ Hd) as (S1 & S2).
        assert (L : length d = n). { destruct (data_complete _ n (good_agg v Gv (last_name p) Wv)) as (d' & Hd' & L). congruence. }
        split; [exact L|]. split.
        * intros d0 ->. cbn in Hd. injection Hd as <-. reflexivity.
        * intros i. rewrite S2. rewrite (good_true i v Gv (last_name p) Wv). split; intros (q & d0 & H1 & H2 & H3); exists q, d0; (split; [exact H1|]; split; [exact H2|]); rewrite (last_name_join p q Hp) in *; assumption.
  Qed.
End Good.

(** ** The shape of every hierarchy *)
Section Shape.
  Context (name : Z -> string) (ev : event) (n : nat) (desc : list (string * mask)).
  Hypothesis Hok : SpecHard.event_ok n ev.
  Hypothesis Hname : forall z, has_colon (name z) = false.
  Hypothesis Hlat : forall z, name z <> "latent"%string.
  Hypothesis Hdesc : hard_descendants name ev None false true = Ok (MGrp "or" desc).
  Let key (i : nat) := nth i (dkeys desc) ""%string.
  Let rows := hrows ev (masks_of desc).

  Lemma grown_shape j m : grows (dkeys desc) rows (masks_of desc) (e_edges ev) j m -> good n m /\ wf m /\ aggregable n m.
  Proof using Hok Hname Hlat Hdesc.
    destruct (desc_parts name ev n desc Hok Hname Hlat Hdesc) as (E & EN & ND & NL & LN & LD & HD). destruct (masks_all name ev n desc Hok Hname Hlat Hdesc) as [A1 A2]. pose proof Hok as (LE & _).
    pose proof (rows_ok name ev n desc Hok Hname Hlat Hdesc) as SQ. fold rows in SQ.
    intros HG. assert (AG : aggregable n m) by (pose proof (grows_agg (dkeys desc) rows (masks_of desc) (e_edges ev) (eq_trans LD (eq_sym LN)) A1 A2 j m HG) as H; rewrite LE in H; exact H).
    cut (good n m /\ wf m); [tauto|]. clear AG. induction HG as [j Hj HC|j ms xs Hj HC HL HK IH Hx LX].
    - split; [|exact I]. constructor. destruct (leaf_ok (dkeys desc) (masks_of desc) (e_edges ev) (eq_trans LD (eq_sym LN)) A1 A2 j Hj) as [_ LB]. rewrite LB. exact LE.
    - set (cs := child_ix rows j) in *.
      assert (NC : NoDup (map key cs)) by (apply (ch_keys_NoDup (dkeys desc) rows ND SQ)).
      assert (NLc : ~ In "latent"%string (map key cs)).
      { intros F. apply in_map_iff in F as (c & Ec & Hcc). apply NL. rewrite <- Ec. apply nth_In. apply (ch_link (dkeys desc) rows SQ), (link_lt (dkeys desc) rows SQ) in Hcc. lia. }
      assert (KC : dkeys (combine (map key cs) ms) = map key cs) by (apply combine_fst; rewrite map_length; congruence).
      split.
      + constructor; [exact means_or| |].
        * destruct cs as [|c cs']; [congruence|]. destruct ms as [|v ms]; [discriminate|]. exists (key c), v. split; [left; reflexivity|]. intros F. apply NLc. left; exact F.
        * intros k w H HLt. apply in_app_or in H as [H|[H|[]]]; [|congruence]. apply (combine_in_map (dkeys desc)) in H as (c & H & ->). apply (IH c w H).
      + apply wf_grp. split.
        * unfold dkeys. rewrite map_app. apply NoDup_app_intro.
          -- change (NoDup (dkeys (combine (map key cs) ms))). rewrite KC. exact NC.
          -- repeat constructor. intros [].
          -- change (forall x, In x (dkeys (combine (map key cs) ms)) -> ~ In x ["latent"%string]). rewrite KC. intros x Hx1 [<-|[]]. contradiction.
        * apply Forall_app. split; [|repeat constructor]. apply Forall_forall. intros [k w] H. apply (combine_in_map (dkeys desc)) in H as (c & H & ->). apply (IH c w H).
  Qed.
End Shape.

Lemma tree_shape name ev n fuel agg kids :
  SpecHard.event_ok n ev -> (forall z, has_colon (name z) = false) -> (forall z, name z <> "latent"%string) ->
  length (hard_rows ev) <= fuel -> hierarchy name fuel ev None = Ok (MGrp agg kids) ->
  agg = "or"%string /\ wf (MGrp agg kids) /\
  (forall k c, In (k, c) kids -> aggregable n c /\ good n c /\ k <> "latent"%string) /\
  NoDup (map last_name (filter (fun p => negb (has "latent" p)) (paths (MGrp agg kids)))).
Proof.
  intros Hok Hname Hlat HF HT. destruct (hard_parts name ev n Hok Hname Hlat) as (names & ds & Hd & EN & ND & NL & LN & LD & HD).
  destruct (inter_data ev n Hok) as (inter & HI & HA). destruct (any inter) eqn:EA.
  - apply proj1 in HA. specialize (HA eq_refl). set (desc := combine names (map MArr ds)) in *.
    destruct (main name ev n desc Hok Hname Hlat HA Hd) as (rs & ms & HS & HR & HM & HE). pose proof HT as HT0. rewrite (HE fuel HF) in HT. injection HT as <- <-.
    set (key := fun i => nth i (dkeys desc) ""%string) in *.
    assert (KN : dkeys desc = names) by (apply combine_fst; rewrite map_length; congruence).
    pose proof (rows_ok name ev n desc Hok Hname Hlat Hd) as SQ.
    assert (LR : forall r, In r rs -> r < length names).
    { intros r Hr. apply HR in Hr as [(c & Hc) _]. apply (rows_link name ev n desc Hok Hname Hlat Hd) in Hc. apply (link_lt _ _ SQ) in Hc. rewrite KN in Hc. apply Hc. }
    assert (KR : dkeys (combine (map key rs) ms) = map key rs) by (apply combine_fst; rewrite map_length; eapply Forall2_length'; exact HM).
    assert (KI : forall a b, a < length names -> b < length names -> key a = key b -> a = b) by (intros a b Ha Hb; apply (key_inj (dkeys desc)); rewrite KN; assumption).
    assert (W : wf (MGrp "or" (combine (map key rs) ms))).
    { apply wf_grp. split; [rewrite KR; apply map_NoDup_in; [intros a b Ha Hb; apply KI; apply LR; assumption | apply lt_sorted_NoDup; exact HS]|].
      apply Forall_forall. intros [k v] H. apply (combine_in_map (dkeys desc)) in H as (c & H & ->). destruct (Forall2_combine_In _ _ _ HM) as [_ HM2]. apply HM2 in H. apply (grown_shape name ev n desc Hok Hname Hlat Hd) in H. apply H. }
    split; [reflexivity|]. split; [exact W|]. split.
    + intros k c H. apply (combine_in_map (dkeys desc)) in H as (r & H & ->). destruct (Forall2_combine_In _ _ _ HM) as [_ HM2]. pose proof (HM2 _ _ H) as HG. apply (grown_shape name ev n desc Hok Hname Hlat Hd) in HG.
      split; [tauto|]. split; [tauto|]. intros F. apply NL. rewrite <- F. rewrite <- KN. apply nth_In. rewrite KN. apply LR. eapply in_combine_l; exact H.
    + apply map_NoDup_in; [|apply NoDup_filter, paths_NoDup; exact W].
      assert (X : forall p, In p (filter (fun p => negb (has "latent" p)) (paths (MGrp "or" (combine (map key rs) ms)))) -> exists l, chain (closest (anc_ev ev)) l /\ p = map key l /\ last l 0 < length names /\ last_name p = key (last l 0)).
      { intros p H. apply filter_In in H as [H HL]. apply negb_true_iff, has_notIn in HL. apply entries_paths in H as [Hp Hx]; [|exact W]. destruct (at_path _ p) as [v|] eqn:E; [|congruence].
        destruct (path_chain name ev n desc Hok Hname Hlat HA Hd fuel _ p v HF HT0 Hp E) as (l & Hc & [->|[-> _]]); [|exfalso; apply HL, in_or_app; right; left; reflexivity].
        pose proof (chain_ne ev l Hc) as Hne. exists l. split; [exact Hc|]. split; [reflexivity|]. split.
        - destruct (at_chain name ev n desc Hok Hname Hlat HA Hd fuel _ l HF HT0 Hc) as (m & _ & HG). rewrite <- KN. destruct HG; assumption.
        - destruct (exists_last Hne) as (l0 & y & ->). rewrite map_app, last_last. unfold last_name. cbn [map]. rewrite last_last. reflexivity. }
      intros p q Hp Hq Epq. destruct (X p Hp) as (l & Hc & -> & Lp & E1). destruct (X q Hq) as (l' & Hc' & -> & Lq & E2). rewrite E1, E2 in Epq. apply KI in Epq; [|assumption..].
      f_equal. eapply (chain_unique (closest (anc_ev ev)) (link_unique ev)); eauto; eapply chain_ne; eauto.
  - assert (HN : ~ has_intermediate ev) by (intros H; apply HA in H; congruence).
    rewrite (C45_no_intermediate name ev n fuel Hok Hname HN), Hd in HT. injection HT as <- <-.
    assert (KN : dkeys (combine names (map MArr ds)) = names) by (apply combine_fst; rewrite map_length; congruence).
    assert (AR : forall k c, In (k, c) (combine names (map MArr ds)) -> exists d, c = MArr d /\ length d = n).
    { intros k c H. apply in_combine_r in H. apply in_map_iff in H as (d & <- & H). exists d. split; [reflexivity|]. apply In_nth_error in H as (j & Hj).
      destruct (nth_error_in_range (hard_rows ev) j) as (p & Hp); [rewrite <- LD; apply nth_error_Some; congruence|]. destruct (HD j p Hp) as [L _]. rewrite (nth_error_nth _ _ _ Hj) in L. exact L. }
    split; [reflexivity|]. split; [|split].
    + apply wf_grp. split; [rewrite KN; exact ND|]. apply Forall_forall. intros [k c] H. destruct (AR k c H) as (d & -> & _). exact I.
    + intros k c H. destruct (AR k c H) as (d & -> & L). split; [constructor; exact L|]. split; [constructor; exact L|]. intros ->. apply NL. rewrite <- KN. apply (in_map fst) in H. exact H.
    + replace (paths (MGrp "or" (combine names (map MArr ds)))) with (map (fun k => [k]) names).
      * assert (F : filter (fun p => negb (has "latent" p)) (map (fun k : string => [k]) names) = map (fun k => [k]) names).
        { apply filter_true_id. intros p H. apply in_map_iff in H as (k & <- & H). apply negb_true_iff, has_notIn. intros [->|[]]. contradiction. }
        rewrite F, map_map. cbn. rewrite map_id. exact ND.
      * rewrite paths_grp. rewrite <- KN at 1. clear - AR. unfold dkeys. induction (combine names (map MArr ds)) as [|[k c] r IH]; [reflexivity|]. cbn [map flat_map fst snd].
        destruct (AR k c (or_introl eq_refl)) as (d & -> & _). cbn. f_equal. apply IH. intros k' c' H. apply (AR k' c'). right; exact H.
Qed.

(** ** The partitioned tree *)
Lemma lw_skel (R : list bool -> list bool -> Prop) m : forall m', lw R m m' -> skeleton m = skeleton m'.
Proof.
  induction m as [d|agg kids IH] using mask_ind'; intros [d'|agg' kids'] H; try contradiction; [reflexivity|]. apply lw_grp in H as (-> & H). cbn [skeleton]. f_equal.
  revert kids' H. induction IH as [|[k v] r Hp Hr IHr]; intros kids' H; inversion H as [|? [k' v'] ? ? (E1 & E2) H']; subst; [reflexivity|]. cbn [map fst snd] in *. subst k'. rewrite (IHr _ H'). f_equal. f_equal.
  destruct (String.eqb k "latent"); [congruence | apply Hp; exact E2].
Qed.
Lemma lw_good n (R : list bool -> list bool -> Prop) m : (forall d d', length d = n -> R d d' -> length d' = n) -> good n m -> forall m', lw R m m' -> good n m'.
Proof.
  intros HR. induction m as [d|agg kids IH] using mask_ind'; intros G [d'|agg' kids'] H; try contradiction; [inversion G; subst; constructor; eapply HR; eauto|].
  apply lw_grp in H as (-> & H). inversion G as [|? ? HO (k0 & w0 & I0 & L0) HK]; subst. constructor; [exact HO| |].
  - destruct (Forall2_In_l _ _ _ _ H I0) as ([k1 w1] & I1 & E1 & _). cbn in E1. subst k1. eauto.
  - intros k w Hk HL. destruct (Forall2_In_r _ _ _ _ H Hk) as ([k1 w1] & I1 & E1 & E2). cbn in E1, E2. subst k1. apply String.eqb_neq in HL as HL'. rewrite HL' in E2.
    rewrite Forall_forall in IH. apply (IH (k, w1) I1); [eapply HK; eauto | exact E2].
Qed.
Lemma top_skel (R : list bool -> list bool -> Prop) kids kids' : top R kids kids' -> map (fun p => (fst p, skeleton (snd p))) kids = map (fun p => (fst p, skeleton (snd p))) kids'.
Proof. induction 1 as [|[k v] [k' v'] r r' (E1 & E2) H IH]; [reflexivity|]. cbn [map fst snd] in *. subst k'. rewrite IH, (lw_skel _ _ _ E2). reflexivity. Qed.
Lemma top_good n (R : list bool -> list bool -> Prop) agg kids kids' : (forall d d', length d = n -> R d d' -> length d' = n) -> means agg OR -> kids <> [] -> (forall k c, In (k, c) kids -> good n c /\ k <> "latent"%string) ->
  top R kids kids' -> good n (MGrp agg kids').
Proof.
  intros HR HO Hne HG HT. constructor; [exact HO| |].
  - destruct HT as [|[k v] [k' v'] r r' (E1 & E2) H]; [congruence|]. exists k', v'. split; [left; reflexivity|]. cbn in E1. subst k'. apply (HG k v). left; reflexivity.
  - intros k w Hk _. destruct (Forall2_In_r _ _ _ _ HT Hk) as ([k1 w1] & I1 & E1 & E2). cbn in E1, E2. subst k1. eapply lw_good; [exact HR | apply (HG _ _ I1) | exact E2].
Qed.
(** Without 'latent' in the path, leaves correspond. *)
Lemma top_at (R : list bool -> list bool -> Prop) agg kids kids' p v : top R kids kids' -> p <> [] -> ~ In "latent"%string p -> at_path (MGrp agg kids) p = Some v ->
  exists v', at_path (MGrp agg kids') p = Some v' /\ leaf_related R false v v'.
Proof.
  intros HT Hp HN E. destruct p as [|k p]; [congruence|]. cbn [at_path] in *. destruct (dget k kids) as [w|] eqn:Ew; [|discriminate].
  destruct (dget_Forall2 _ _ _ _ _ HT Ew) as (w' & -> & HL). destruct (lw_at _ _ _ _ _ HL E) as (v' & E' & HR). exists v'. split; [exact E'|].
  replace (has "latent" p) with false in HR; [exact HR|]. symmetry. apply has_notIn. intros F. apply HN. right; exact F.
Qed.
Lemma top_at_back (R : list bool -> list bool -> Prop) agg kids kids' p v' : top R kids kids' -> p <> [] -> ~ In "latent"%string p -> at_path (MGrp agg kids') p = Some v' ->
  exists v, at_path (MGrp agg kids) p = Some v /\ leaf_related R false v v'.
Proof.
  intros HT Hp HN E. destruct (at_path (MGrp agg kids) p) as [v|] eqn:E0.
  - destruct (top_at R agg kids kids' p v HT Hp HN E0) as (v1 & E1 & HR). exists v. split; [reflexivity|]. congruence.
  - exfalso. assert (SK : forall m m' q, skeleton m = skeleton m' -> at_path m q = None -> at_path m' q = None).
    { clear. intros m m' q. revert m m'. induction q as [|k q IH]; intros m m' H F; [discriminate|]. destruct m as [d|a ks], m' as [d'|a' ks']; cbn in H; try discriminate; [reflexivity|]. injection H as -> H. cbn [at_path] in *.
      revert ks' H F. induction ks as [|[k1 v1] r IHr]; intros [|[k2 v2] r'] H F; try discriminate; [reflexivity|]. cbn [map fst snd] in H. injection H as -> H1 H2. cbn [dget] in *. destruct (String.eqb k k2); [eapply IH; eauto | apply IHr; assumption]. }
    rewrite (SK (MGrp agg kids) (MGrp agg kids') p) in E; [discriminate| |exact E0]. cbn [skeleton]. f_equal. eapply top_skel; exact HT.
Qed.

(** ** Pruning one leaf *)
Lemma compress_sole {A} (m : list bool) : forall (l : list A) p x, length m = length l -> nth_error m p = Some true -> nth_error l p = Some x ->
  (forall q, nth_error m q = Some true -> q = p) -> compress m l = [x].
Proof.
  induction m as [|b m IH]; intros [|y l] p x L Hp Hx Hu; try discriminate; [destruct p; discriminate|]. destruct b; cbn [compress].
  - assert (p = 0) by (symmetry; apply Hu; reflexivity). subst p. cbn in Hx. injection Hx as ->. f_equal. destruct (compress m l) as [|z r] eqn:Ez; [reflexivity|]. exfalso.
    assert (In z (compress m l)) by (rewrite Ez; left; reflexivity). apply compress_In in H as (i & H & _). specialize (Hu (S i) H). discriminate.
  - destruct p as [|p]; [discriminate|]. apply (IH l p x); [cbn in L; lia | exact Hp | exact Hx |]. intros q Hq. specialize (Hu (S q) Hq). lia.
Qed.

Lemma azimuth_unique x y a b : (0 < x * x + y * y)%R -> azimuth_of x y a -> azimuth_of x y b -> a = b.
Proof.
  intros HP (B1 & C1 & S1) (B2 & C2 & S2). assert (sqrt (x * x + y * y) > 0)%R by (apply sqrt_lt_R0; exact HP).
  destruct (same_angle_trig a b) as (k & Hk); [apply (Rmult_eq_reg_l (sqrt (x * x + y * y))); lra..|].
  pose proof PI_RGT_0. assert (K : (-1 < IZR k < 1)%R) by (split; nra). destruct K as [K1 K2]. apply lt_IZR in K1, K2. assert (k = 0%Z) by lia. subst k. lra.
Qed.
Lemma near_within a b radius : (/ 10000000000 < sqrt (pt_sq a))%R -> (near a b radius <-> within b (pseudo_rap a) (atan2 (py a) (px a)) radius).
Proof.
  intros HA. assert (PA : (0 < pt_sq a)%R). { destruct (Rle_dec (pt_sq a) 0) as [C|C]; [|lra]. rewrite (sqrt_neg_0 _ C) in HA. lra. }
  pose proof (atan2_spec (py a) (px a)) as SA. unfold near, within. split.
  - intros (_ & PB & fa & fb & g & AA & AB & HG & SG & L). split; [exact PB|]. exists g. split; [exact HG|]. split; [|exact L]. intros c AC.
    assert (c = fb) as -> by (eapply azimuth_unique; [|exact AC|exact AB]; exact PB). assert (atan2 (py a) (px a) = fa) as -> by (eapply azimuth_unique; [|exact SA|exact AA]; exact PA). exact SG.
  - intros (PB & g & HG & SG & L). split; [exact HA|]. split; [exact PB|]. exists (atan2 (py a) (px a)), (atan2 (py b) (px b)), g. pose proof (atan2_spec (py b) (px b)) as SB. split; [exact SA|]. split; [exact SB|]. split; [exact HG|]. split; [apply SG; exact SB | exact L].
Qed.

Lemma prune_leaf_ok outgoing pmu radius d q a : length outgoing = length pmu -> length d = length pmu ->
  nth_error outgoing q = Some true -> nth_error d q = Some true -> (forall q', nth_error outgoing q' = Some true -> nth_error d q' = Some true -> q' = q) ->
  nth_error pmu q = Some a ->
  exists d', prune_leaf outgoing pmu radius d = Ok d' /\ length d' = length d /\
    forall i b, nth_error pmu i = Some b -> (nth_error d' i = Some true <-> nth_error d i = Some true /\ near a b radius).
Proof.
  intros LO LD HO HD HU HA. unfold prune_leaf, broadcast2. rewrite LO, LD, Nat.eqb_refl. cbn [bind].
  assert (HM : forall i, nth_error (map2 andb outgoing d) i = Some true <-> nth_error outgoing i = Some true /\ nth_error d i = Some true).
  { intros i. apply map2_andb_true with (n := length pmu); assumption. }
  assert (LM : length (map2 andb outgoing d) = length pmu) by (rewrite map2_length; lia).
  rewrite getkey_mask by exact LM. cbn [bind].
  rewrite (compress_sole (map2 andb outgoing d) pmu q a LM); [|apply HM; auto|exact HA|intros q' Hq; apply HM in Hq; apply HU; tauto].
  unfold phi. destruct (Rle_dec (Rabs (pt a)) ZERO_TOL) as [C|C].
  - unfold centroid_prune. rewrite getkey_mask by exact LD. cbn [bind]. eexists. split; [reflexivity|]. split; [rewrite scatter_length; congruence|].
    intros i b Hb. assert (EF : map (fun p => below (prune_dist (eta a) NaN p) radius) (compress d pmu) = map (fun _ => false) (compress d pmu)) by (apply map_ext; intros p; apply prune_nan; auto).
    rewrite EF, (scatter_compress (fun _ => false)) by exact LD. rewrite map2_nth, Hb. split.
    + destruct (nth_error d i) as [x|]; [|discriminate]. rewrite Bool.andb_false_r. discriminate.
    + intros (_ & N). destruct N as (N & _). unfold ZERO_TOL in C. rewrite Rabs_pos_eq in C by apply sqrt_pos. unfold pt in C. fold (pt_sq a) in C. lra.
  - assert (HT : (/ 10000000000 < sqrt (pt_sq a))%R). { rewrite Rabs_pos_eq in C by apply sqrt_pos. unfold pt, ZERO_TOL in C. fold (pt_sq a) in C. lra. }
    assert (PA : (0 < pt_sq a)%R). { destruct (Rle_dec (pt_sq a) 0) as [C'|C']; [|lra]. rewrite (sqrt_neg_0 _ C') in HT. lra. }
    rewrite (eta_fin a PA). destruct (C53_centroid_prune_mask pmu radius d (pseudo_rap a) (atan2 (py a) (px a)) LD) as (out & E & L & H). exists out. split; [exact E|]. split; [congruence|].
    intros i b Hb. rewrite (H i b Hb), (near_within a b radius HT). reflexivity.
Qed.

(** The loop over the coloured leaves. *)
Lemma prune_loop (leaves : list (string * list bool)) outgoing pmu radius (pr : string -> list bool) ks : forall kids,
  (forall k, In k ks -> exists d, dget k leaves = Some d /\ prune_leaf outgoing pmu radius d = Ok (pr k)) ->
  foldM (fun kids key =>
              leaf <- match dget key leaves with Some d => Ok d | None => Err KeyError end ;;
              d <- prune_leaf outgoing pmu radius leaf ;;
              Ok (write_kids key d kids)) ks kids
  = Ok (upd_kids (fun k d => if existsb (String.eqb k) ks then pr k else d) kids).
Proof.
  induction ks as [|k ks IH]; intros kids H; cbn [foldM].
  - cbn [existsb]. rewrite upd_kids_id. reflexivity.
  - destruct (H k (or_introl eq_refl)) as (d & -> & E). cbn [bind]. rewrite E. cbn [bind]. rewrite IH by (intros k' Hk'; apply H; right; exact Hk').
    rewrite write_kids_upd, upd_kids_comp. f_equal. apply upd_kids_ext. intros k' d'. cbn [existsb]. destruct (existsb (String.eqb k') ks) eqn:E1; [rewrite Bool.orb_true_r; reflexivity|]. rewrite Bool.orb_false_r.
    destruct (String.eqb k' k) eqn:E2; [apply String.eqb_eq in E2; subst; reflexivity | reflexivity].
Qed.
