(** C119: clusters. *)
From Verif Require Import Prelude Dict Keys MaskTypes SpecMask Mask MaskProofs P_Mask SpecAdj SpecArray SpecPart SpecHard SpecHier Arrays ArraysProofs Adjacency AdjacencyProofs Descend DescendProofs Hard HardProofs Hierarchy HierProofs TreeProofs HierEvent HierMain HierOrder Partition PartProofs SpecSelect SelectMisc P_Hier P_Part P_Select P_DeltaR SpecReal RealBase Kinem KinemProofs Coords P_Coords SpecClusters Clusters ClustersProofs.
Close Scope R_scope.
Open Scope nat_scope.

(** A list of distinct positions below [m], sorted. *)
Definition sorted_ix (m : nat) (ix : list nat) : list nat := filter (fun i => existsb (Nat.eqb i) ix) (seq 0 m).
Lemma sorted_ix_In m ix i : (forall j, In j ix -> j < m) -> (In i (sorted_ix m ix) <-> In i ix).
Proof.
  intros H. unfold sorted_ix. rewrite filter_In, in_seq, existsb_exists. split.
  - intros (_ & j & Hj & E). apply Nat.eqb_eq in E. subst; exact Hj.
  - intros Hi. split; [specialize (H i Hi); lia|]. exists i. split; [exact Hi | apply Nat.eqb_refl].
Qed.
Lemma sorted_ix_length m ix : (forall j, In j ix -> j < m) -> NoDup ix -> length (sorted_ix m ix) = length ix.
Proof.
  intros H ND. apply Permutation_length, NoDup_Permutation; [apply NoDup_filter, seq_NoDup | exact ND | intros i; apply sorted_ix_In; exact H].
Qed.

Lemma Forall2_choose {A B} (R : A -> B -> Prop) l : (forall x, In x l -> exists y, R x y) -> exists l', Forall2 R l l'.
Proof.
  induction l as [|x r IH]; intros H; [exists []; constructor|]. destruct (H x (or_introl eq_refl)) as (y & Hy). destruct IH as (l' & F); [intros z Hz; apply H; right; exact Hz|]. exists (y :: l'). constructor; assumption.
Qed.

Section Main.
  Context {D : Type} (dist : mom -> mom -> D) (lt : D -> D -> bool) (name : Z -> string) (order : list string -> list string).
  Context (n fuel : nat) (ev : event) (color : list (Z * Z)) (pmu : list mom) (radius : R) (agg : string) (kids : list (string * mask)).
  Notation tree := (MGrp agg kids).
  Notation out_mask := (map (fun z => Z.eqb 23 (wrap16 (Z.abs z))) (e_status ev)).

  Context (Hord : forall l, Permutation (order l) l) (HW : weak_order lt)
    (Hok : SpecHard.event_ok n ev) (Hpok : SpecPart.event_ok n (e_edges ev) (e_status ev) (e_final ev) pmu) (LC : length color = n)
    (Hname : forall z, has_colon (name z) = false) (Hlat : forall z, name z <> "latent"%string)
    (HF : length (hard_rows ev) <= fuel) (HT : hierarchy name fuel ev None = Ok tree) (Hne : kids <> [])
    (Hhad : forall v q, hadron_vertex (e_edges ev) (e_status ev) v -> outgoing ev q -> ~ final_desc (e_edges ev) (e_final ev) v q)
    (Hone : forall p d, leaf tree p d -> exists q, (nth_error d q = Some true /\ outgoing ev q) /\
              forall q', nth_error d q' = Some true -> outgoing ev q' -> q' = q).

  Let I := Inv dist lt n (e_edges ev) (e_final ev) pmu (selected (e_edges ev) (e_status ev) kids).

  Lemma out_outgoing q : nth_error out_mask q = Some true <-> outgoing ev q.
  Proof using All.
    destruct Hok as (_ & _ & _ & _ & F & _). rewrite (outgoing_eq (e_status ev) q F). unfold outgoing. split; intros (z & A & B); exists z; (split; [exact A|lia]).
  Qed.
  Lemma I_len d d' : length d = n -> I d d' -> length d' = n.
  Proof using All. intros L (_ & L' & _). congruence. Qed.
  Lemma I_out d d' q : I d d' -> outgoing ev q -> nth_error d' q = nth_error d q.
  Proof using All. intros (_ & _ & _ & H) HO. apply H. intros v (HV & _) _. exact (Hhad v q HV HO). Qed.

  Lemma leaf_one p d q q' : leaf tree p d -> nth_error d q = Some true -> outgoing ev q -> nth_error d q' = Some true -> outgoing ev q' -> q' = q.
  Proof using All. intros HL A B C E. destruct (Hone p d HL) as (x & _ & H). rewrite (H q A B). apply H; assumption. Qed.
  Lemma parton_unique p q q' : parton_of ev tree p q -> parton_of ev tree p q' -> q' = q.
  Proof using All. intros (d & HL & A & B) (d' & HL' & A' & B'). assert (d' = d) as -> by (destruct HL as [E _], HL' as [E' _]; congruence). eapply leaf_one; eauto. Qed.
  Lemma color_unique p c c' : leaf_color ev color tree p c -> leaf_color ev color tree p c' -> c' = c.
  Proof using All. intros (q & Hq & E) (q' & Hq' & E'). rewrite (parton_unique p q q' Hq Hq') in E'. congruence. Qed.

  Section Tree.
    Context (kids1 : list (string * mask)) (T1 : top I kids kids1).
    Notation tree1 := (MGrp agg kids1).
    Let es1 := filter leafy_top (entries tree1).

    Lemma W0 : wf tree.
    Proof using All. destruct (tree_shape name ev n fuel agg kids Hok Hname Hlat HF HT) as (_ & W & _). exact W. Qed.
    Lemma SK : skeleton tree = skeleton tree1.
    Proof using All. cbn [skeleton]. f_equal. eapply top_skel; exact T1. Qed.
    Lemma W1 : wf tree1.
    Proof using All. eapply wf_skel; [apply SK | apply W0]. Qed.
    Lemma top_nolat k c : In (k, c) kids -> k <> "latent"%string.
    Proof using All. destruct (tree_shape name ev n fuel agg kids Hok Hname Hlat HF HT) as (_ & _ & H & _). intros Hin. apply (H k c Hin). Qed.
    Lemma G1 : good n tree1.
    Proof using All.
      destruct (tree_shape name ev n fuel agg kids Hok Hname Hlat HF HT) as (EA & _ & H & _). eapply top_good; [apply I_len | rewrite EA; exact means_or | exact Hne | | exact T1]. intros k c Hin. destruct (H k c Hin) as (_ & A & B). split; assumption.
    Qed.
    Lemma leaf_len p d : at_path tree1 p = Some (MArr d) -> ~ In "latent"%string p -> length d = n.
    Proof using All. intros E HN. pose proof (good_at n tree1 G1 p (MArr d) HN E) as G. now inversion G. Qed.

    (** The leaves found by leaf_masks. *)
    Lemma es1_In e : In e es1 <-> exists d1 d0, snd e = MArr d1 /\ at_path tree1 (fst e) = Some (MArr d1) /\ leaf tree (fst e) d0 /\ I d0 d1.
    Proof using All.
      destruct e as [p v]. unfold es1. rewrite filter_In. rewrite entries_at_path by exact W1. unfold leafy_top. cbn [fst snd]. split.
      - intros ((Hp & E) & HL). apply andb_prop in HL as [HA HL]. destruct v as [d1|]; [|discriminate]. apply negb_true_iff, has_notIn in HL.
        assert (HN : ~ In "latent"%string p).
        { destruct p as [|k p]; [congruence|]. cbn [tl] in HL. intros [->|F]; [|contradiction]. cbn [at_path] in E. destruct (dget "latent" kids1) as [w|] eqn:Ew; [|discriminate]. apply dget_In in Ew.
          destruct (Forall2_In_r _ _ _ _ T1 Ew) as ([k1 w1] & I1 & E1 & _). cbn in E1. subst k1. exact (top_nolat _ _ I1 eq_refl). }
        destruct (top_at_back I agg kids kids1 p (MArr d1) T1 Hp HN E) as (v0 & E0 & R0). destruct v0 as [d0|]; [|contradiction]. cbn in R0. exists d1, d0. split; [reflexivity|]. split; [exact E|]. split; [split; assumption | exact R0].
      - intros (d1 & d0 & -> & E & (E0 & HN) & HI). assert (Hp : p <> []) by (intros ->; discriminate). split; [split; [exact Hp|exact E]|]. cbn [is_arr andb]. apply negb_true_iff, has_notIn. intros F. apply HN. destruct p; [destruct F | right; exact F].
    Qed.
    Lemma leaf_es1 p d0 : leaf tree p d0 -> exists d1, In (p, MArr d1) es1 /\ at_path tree1 p = Some (MArr d1) /\ I d0 d1.
    Proof using All.
      intros HL. pose proof HL as (E0 & HN). assert (Hp : p <> []) by (intros ->; discriminate). destruct (top_at I agg kids kids1 p (MArr d0) T1 Hp HN E0) as (v1 & E1 & R1). destruct v1 as [d1|]; [|contradiction]. cbn in R1.
      exists d1. split; [|split; [exact E1 | exact R1]]. apply es1_In. exists d1, d0. cbn [fst snd]. split; [reflexivity|]. split; [exact E1|]. split; [exact HL | exact R1].
    Qed.

    Lemma paths1 : paths tree1 = paths tree.
    Proof using All. rewrite <- (paths_skeleton tree1), <- (paths_skeleton tree), SK. reflexivity. Qed.
    Lemma names_inj p q : p <> [] -> q <> [] -> ~ In "latent"%string p -> ~ In "latent"%string q -> at_path tree p <> None -> at_path tree q <> None -> last_name p = last_name q -> p = q.
    Proof using All.
      intros Hp Hq Np Nq Ap Aq E. destruct (tree_shape name ev n fuel agg kids Hok Hname Hlat HF HT) as (_ & _ & _ & ND).
      assert (X : forall x, x <> [] -> ~ In "latent"%string x -> at_path tree x <> None -> In x (filter (fun p => negb (has "latent" p)) (paths tree))).
      { intros x A B C. apply filter_In. split; [apply entries_paths; [apply W0 | auto] | apply negb_true_iff, has_notIn; exact B]. }
      apply X in Ap, Aq; auto. destruct (In_nth_error _ _ Ap) as (i & Hi). destruct (In_nth_error _ _ Aq) as (j & Hj).
      assert (i = j). { apply (proj1 (NoDup_nth_error _) ND); [rewrite map_length; apply nth_error_Some; congruence|]. rewrite !nth_error_map', Hi, Hj. cbn. congruence. }
      congruence.
    Qed.
    Lemma es1_ne e : In e es1 -> fst e <> [] /\ ~ In "latent"%string (fst e) /\ at_path tree (fst e) <> None.
    Proof using All. intros H. apply es1_In in H as (d1 & d0 & _ & _ & (E & HN) & _). split; [intros F; rewrite F in E; discriminate|]. split; [exact HN | congruence]. Qed.
    Lemma es1_NoDup : NoDup (map fst es1).
    Proof using All.
      unfold es1. assert (ND : NoDup (paths tree1)) by (apply paths_NoDup, W1). unfold paths in ND. clear - ND. induction (entries tree1) as [|e r IH]; [constructor|]. inversion ND as [|? ? A B]; subst. cbn. destruct (leafy_top e); [|apply IH; exact B]. cbn. constructor; [|apply IH; exact B].
      intros F. apply A. apply in_map_iff in F as (x & <- & F). apply filter_In in F as [F _]. apply in_map; exact F.
    Qed.
    Lemma es1_names : NoDup (map (fun e => last_name (fst e)) es1).
    Proof using All.
      rewrite <- (map_map fst last_name). apply map_NoDup_in; [|apply es1_NoDup]. intros p q Hp Hq E. apply in_map_iff in Hp as (e & <- & He). apply in_map_iff in Hq as (f & <- & Hf).
      apply es1_ne in He as (A & B & C). apply es1_ne in Hf as (A' & B' & C'). apply names_inj; assumption.
    Qed.

    Let ld (e : list string * mask) : string * list bool := (last_name (fst e), match snd e with MArr d => d | MGrp _ _ => [] end).
    Let leaves := map ld es1.

    Lemma leaves_ok : exists agg', leaf_masks tree1 = Ok (MGrp agg' (map (fun e => (last_name (fst e), snd e)) es1)) /\
      mapM (fun p => match snd p with MArr d => Ok (fst p, d) | MGrp _ _ => Err TypeError end) (map (fun e : list string * mask => (last_name (fst e), snd e)) es1) = Ok leaves.
    Proof using All.
      destruct (tree_shape name ev n fuel agg kids Hok Hname Hlat HF HT) as (EA & _).
      destruct (C07_leaf_masks agg kids1 OR) as (agg' & E & _); [rewrite EA; exact means_or | exact es1_names|]. exists agg'. split; [exact E|].
      assert (G : forall l, (forall e, In e l -> In e es1) -> mapM (fun p => match snd p with MArr d => Ok (fst p, d) | MGrp _ _ => Err TypeError end) (map (fun e : list string * mask => (last_name (fst e), snd e)) l) = Ok (map ld l)).
      { induction l as [|e r IH]; intros H; [reflexivity|]. cbn [map mapM]. destruct (proj1 (es1_In e) (H e (or_introl eq_refl))) as (d1 & _ & E1 & _). unfold ld at 1. cbn [fst snd]. rewrite E1. cbn [bind]. rewrite IH by (intros; apply H; right; auto). reflexivity. }
      apply G. auto.
    Qed.
    Lemma leaves_names : map fst leaves = map (fun e => last_name (fst e)) es1.
    Proof using All. unfold leaves. rewrite map_map. reflexivity. Qed.

    (** The colours of the leaves. *)
    Lemma colors_ok : exists cs, parton_colors leaves (e_status ev) color cs /\ Forall2 (fun e c => leaf_color ev color tree (fst e) c) es1 cs.
    Proof using All.
      assert (LS : length (e_status ev) = n) by (destruct Hok as (_ & _ & L & _); exact L).
      assert (X : forall e, In e es1 -> exists c, leaf_color ev color tree (fst e) c /\ length (snd (ld e)) = length (e_status ev) /\ sole_parton out_mask color (snd (ld e)) c).
      { intros e He. apply es1_In in He as (d1 & d0 & Es & E1 & HL & HI). destruct (Hone _ _ HL) as (q & (Hq & HO) & HU). unfold ld. cbn [snd]. rewrite Es.
        assert (Q : q < n). { rewrite <- LS. destruct HO as (z & Hz & _). apply nth_error_Some. congruence. }
        destruct (nth_error_in_range color q) as (c & Hc); [congruence|]. exists c. split; [exists q; split; [exists d0; auto | exact Hc]|]. split; [rewrite LS; apply (leaf_len _ _ E1); apply HL|].
        exists q. split; [apply out_outgoing; exact HO|]. split; [rewrite (I_out d0 d1 q HI HO); exact Hq|]. split; [exact Hc|]. intros q' H1 H2. apply out_outgoing in H1. apply HU; [|exact H1]. rewrite <- (I_out d0 d1 q' HI H1). exact H2. }
      apply Forall2_choose in X as (cs & X). exists cs. split.
      - split; [congruence|]. exists out_mask. split; [split; [apply map_length|]|].
        + intros p. apply outgoing_eq. apply Hok.
        + unfold leaves. clear - X. induction X as [|e c r l (_ & A & B) X IH]; cbn; constructor; auto.
      - clear - X. induction X as [|e c r l (A & _) X IH]; constructor; auto.
    Qed.

    Section Colors.
      Context (cs : list (Z * Z)) (HC : Forall2 (fun e c => leaf_color ev color tree (fst e) c) es1 cs).
      Let N := length es1.
      Let path i := nth i (map fst es1) [].

      Lemma path_nth i : i < N -> exists d, nth_error es1 i = Some (path i, MArr d) /\ In (path i, MArr d) es1.
      Proof using All.
        intros Hi. destruct (nth_error_in_range es1 i Hi) as ([p v] & E). assert (P : path i = p) by (unfold path; apply nth_error_nth; rewrite nth_error_map', E; reflexivity). pose proof (nth_error_In _ _ E) as Hin. destruct (proj1 (es1_In _) Hin) as (d & _ & Ev & _). cbn in Ev. subst v. rewrite P. eauto.
      Qed.
      Lemma path_color i : i < N -> leaf_color ev color tree (path i) (nth i cs (0, 0)%Z) /\ nth_error cs i = Some (nth i cs (0, 0)%Z).
      Proof using All.
        intros Hi. destruct (path_nth i Hi) as (d & E & _). destruct (nth_error_in_range cs i) as (c & Ec); [rewrite <- (Forall2_length' _ _ _ HC); exact Hi|]. rewrite (nth_error_nth _ _ _ Ec).
        split; [|exact Ec]. pose proof (Forall2_nth_error _ _ _ i HC) as X. rewrite E, Ec in X. exact X.
      Qed.
      Lemma cs_len i c : nth_error cs i = Some c -> i < N.
      Proof using All. intros H. unfold N. rewrite (Forall2_length' _ _ _ HC). apply nth_error_Some. congruence. Qed.
      Lemma path_inj i j : i < N -> j < N -> path i = path j -> i = j.
      Proof using All. intros Hi Hj E. apply (proj1 (NoDup_nth (map fst es1) []) es1_NoDup); rewrite ?map_length; assumption. Qed.
      Lemma color_iff i c : i < N -> (leaf_color ev color tree (path i) c <-> nth_error cs i = Some c).
      Proof using All. intros Hi. destruct (path_color i Hi) as (A & B). split; [intros H; rewrite B; f_equal; symmetry; eapply color_unique; eauto | intros H; congruence]. Qed.
      Lemma colored_path i : i < N -> (colored cs i <-> colored_leaf ev color tree (path i)).
      Proof using All. intros Hi. unfold colored, colored_leaf. split; intros (c & A & B); exists c; (split; [apply (color_iff i c Hi); exact A|exact B]). Qed.
      Lemma leaf_index p : colored_leaf ev color tree p -> exists i, i < N /\ path i = p.
      Proof using All.
        intros (c & (q & (d0 & HL & _) & _) & _). destruct (leaf_es1 p d0 HL) as (d1 & Hin & _). destruct (In_nth_error _ _ Hin) as (i & Hi). exists i. split; [apply nth_error_Some; congruence|]. unfold path. apply nth_error_nth. rewrite nth_error_map', Hi. reflexivity.
      Qed.
      Lemma neutral_path ix : (forall i, In i ix -> i < N) ->
        (neutral cs ix <-> forall x, (exists p c, In p (map path ix) /\ leaf_color ev color tree p c /\ fst c = x) <-> (exists p c, In p (map path ix) /\ leaf_color ev color tree p c /\ snd c = x)).
      Proof using All.
        intros Hix. assert (X : forall (f : Z * Z -> Z) x, (exists i c, In i ix /\ nth_error cs i = Some c /\ f c = x) <-> (exists p c, In p (map path ix) /\ leaf_color ev color tree p c /\ f c = x)).
        { intros f x. split.
          - intros (i & c & A & B & C). exists (path i), c. split; [apply in_map; exact A|]. split; [apply color_iff; auto | exact C].
          - intros (p & c & A & B & C). apply in_map_iff in A as (i & <- & A). exists i, c. split; [exact A|]. split; [apply color_iff; auto | exact C]. }
        unfold neutral. split; intros H x; specialize (H x); pose proof (X fst x); pose proof (X snd x); tauto.
      Qed.
      Lemma singlet_path i : i < N -> ((exists ix, In i ix /\ combination cs ix /\ neutral cs ix) <-> exists ps, In (path i) ps /\ singlet ev color tree ps).
      Proof using All.
        intros Hi. split.
        - intros (ix & Hin & (L & S & CO) & NE). assert (IX : forall j, In j ix -> j < N) by (intros j Hj; destruct (CO j Hj) as (c & Hc & _); eapply cs_len; eauto).
          exists (map path ix). split; [apply in_map; exact Hin|]. split; [rewrite map_length; exact L|]. split; [|split].
          + apply map_NoDup_in; [intros a b Ha Hb; apply path_inj; auto | apply lt_sorted_NoDup; exact S].
          + intros p Hp. apply in_map_iff in Hp as (j & <- & Hj). apply colored_path; auto.
          + apply neutral_path; auto.
        - intros (ps & Hin & L & ND & CO & NE). assert (X : forall p, In p ps -> exists j, j < N /\ path j = p) by (intros p Hp; apply leaf_index; auto).
          apply Forall2_choose in X as (ix & X). assert (IX : forall j, In j ix -> j < N) by (intros j Hj; destruct (Forall2_In_r _ _ _ _ X Hj) as (p & _ & A & _); exact A).
          assert (PM : map path ix = ps) by (clear - X; induction X as [|p j r l (_ & A) X IH]; [reflexivity | cbn [map]; rewrite A, IH; reflexivity]).
          assert (NI : NoDup ix) by (apply NoDup_map_inv with (f := path); rewrite PM; exact ND).
          assert (SI : forall j, In j (sorted_ix N ix) <-> In j ix) by (intros j; apply sorted_ix_In; exact IX).
          exists (sorted_ix N ix). split; [|split; [split; [|split]|]].
          + apply SI. rewrite <- PM in Hin. apply in_map_iff in Hin as (j & E & Hj). assert (j = i) by (apply path_inj; auto). congruence.
          + rewrite sorted_ix_length by assumption. rewrite <- (map_length path), PM. exact L.
          + apply SSorted_filter, seq_sorted.
          + intros j Hj. apply SI in Hj. apply colored_path; [auto|]. apply CO. rewrite <- PM. apply in_map; exact Hj.
          + apply neutral_path; [intros j Hj; apply IX, SI; exact Hj|]. intros x. rewrite <- PM in NE. specialize (NE x).
            assert (Y : forall (f : Z * Z -> Z), (exists p c, In p (map path (sorted_ix N ix)) /\ leaf_color ev color tree p c /\ f c = x) <-> (exists p c, In p (map path ix) /\ leaf_color ev color tree p c /\ f c = x)).
            { intros f. split; intros (p & c & A & B); exists p, c; (split; [|exact B]); apply in_map_iff in A as (j & <- & A); apply in_map, SI; exact A. }
            pose proof (Y fst). pose proof (Y snd). tauto.
      Qed.

      (** The names returned by color_singlets(invert=True). *)
      Lemma background_names : parton_colors leaves (e_status ev) color cs -> exists out, color_singlets order leaves (e_status ev) color true = Ok out /\
        forall k, In k (concat out) <-> exists p d0, leaf tree p d0 /\ last_name p = k /\ background ev color tree p.
      Proof using All.
        intros HP. destruct (C51_color_singlets_invert order leaves (e_status ev) color cs Hord) as (out & E & _ & H); [rewrite leaves_names; apply es1_names | apply Hok | exact HP|].
        exists out. split; [exact E|]. intros k. rewrite in_concat. split.
        - intros (t & Ht & Hk). apply H in Ht as (i & k' & Ek & -> & CO & NS). destruct Hk as [->|[]]. destruct CO as (c & Hc & Hz). pose proof (cs_len i c Hc) as Hi.
          destruct (path_nth i Hi) as (d & En & Hin). destruct (proj1 (es1_In _) Hin) as (d1 & d0 & _ & _ & HL & _). cbn in HL. exists (path i), d0. split; [exact HL|]. split.
          + rewrite leaves_names, nth_error_map', En in Ek. cbn [option_map fst] in Ek. injection Ek as Ek. exact Ek.
          + split; [apply (colored_path i Hi); exists c; auto | rewrite <- (singlet_path i Hi); exact NS].
        - intros (p & d0 & HL & <- & CO & NS). destruct (leaf_index p CO) as (i & Hi & <-). exists [last_name (path i)]. split; [|left; reflexivity]. apply H. exists i, (last_name (path i)).
          destruct (path_nth i Hi) as (d & En & _). split; [rewrite leaves_names, nth_error_map', En; reflexivity|]. split; [reflexivity|]. split; [apply (colored_path i Hi); exact CO | rewrite (singlet_path i Hi); exact NS].
      Qed.
    End Colors.

    (** What happens to one leaf. *)
    Lemma leaf_pruned p d0 d1 : leaf tree p d0 -> at_path tree1 p = Some (MArr d1) -> I d0 d1 ->
      dget (last_name p) leaves = Some d1 /\
      exists q a d', parton_of ev tree p q /\ nth_error pmu q = Some a /\ prune_leaf out_mask pmu radius d1 = Ok d' /\ length d' = n /\
        forall i b, nth_error pmu i = Some b -> (nth_error d' i = Some true <-> nth_error d1 i = Some true /\ near a b radius).
    Proof using All.
      intros HL E1 HI. split.
      - apply In_dget; [fold (dkeys leaves); unfold dkeys; rewrite leaves_names; apply es1_names|]. unfold leaves. apply in_map_iff. exists (p, MArr d1). split; [reflexivity|]. apply es1_In. exists d1, d0. auto.
      - destruct (Hone p d0 HL) as (q & (Hq & HO) & HU). assert (LD : length d1 = n) by (apply (leaf_len p d1 E1); apply HL).
        destruct Hpok as (_ & LS & _ & LP & _).
        destruct (nth_error_in_range pmu q) as (a & Ha). { rewrite LP, <- LS. destruct HO as (z & Hz & _). apply nth_error_Some. congruence. }
        destruct (prune_leaf_ok out_mask pmu radius d1 q a) as (d' & E & L & H).
        + rewrite map_length. congruence.
        + congruence.
        + apply out_outgoing; exact HO.
        + rewrite (I_out d0 d1 q HI HO). exact Hq.
        + intros q' H1 H2. apply out_outgoing in H1. apply HU; [|exact H1]. rewrite <- (I_out d0 d1 q' HI H1). exact H2.
        + exact Ha.
        + exists q, a, d'. split; [exists d0; auto|]. split; [exact Ha|]. split; [exact E|]. split; [congruence | exact H].
    Qed.
  End Tree.

  (** [partitioned] determines the leaf. *)
  Lemma partitioned_det d0 d1 d1' i : I d0 d1 -> partitioned dist lt (e_edges ev) (e_final ev) pmu (selected (e_edges ev) (e_status ev) kids) d0 d1' ->
    nth_error d1' i = Some true -> nth_error d1 i = Some true.
  Proof using All.
    intros (_ & L1 & A1 & B1) (L2 & A2 & B2) H. destruct (nth_error d1 i) as [[|]|] eqn:E1; [reflexivity|exfalso..].
    all: set (P := exists v, selected (e_edges ev) (e_status ev) kids v /\ SpecPart.touches (e_edges ev) d0 v /\ final_desc (e_edges ev) (e_final ev) v i).
    all: assert (NN : ~ ~ (P \/ ~ P)) by tauto; apply NN; intros [(v & S1 & S2 & S3)|NP].
    1, 3: destruct (C49_nearest_exists dist lt n (e_edges ev) (e_status ev) (e_final ev) pmu v i HW Hpok (proj1 S1)) as (e & He & _); [destruct S2 as (e & He & _); exists e; exact He | exact S3|].
    1, 2: apply (A2 v i e S1 S2 S3 He), (A1 v i e S1 S2 S3 He) in H; congruence.
    all: assert (NV : forall v, selected (e_edges ev) (e_status ev) kids v -> SpecPart.touches (e_edges ev) d0 v -> ~ final_desc (e_edges ev) (e_final ev) v i) by (intros v X1 X2 X3; apply NP; exists v; auto).
    all: rewrite (B2 i NV) in H; rewrite (B1 i NV) in E1; congruence.
  Qed.

  Lemma mapM_slice (out : list (string * mask)) : (forall k v, In (k, v) out -> exists d, v = MArr d /\ length d = n) ->
    mapM (fun p => v <- slice (KMask (e_final ev)) (snd p) ;; Ok (fst p, v)) out = Ok (map (fun p => (fst p, match snd p with MArr d => MArr (compress (e_final ev) d) | m => m end)) out).
  Proof using All.
    induction out as [|[k v] r IH]; intros H; [reflexivity|]. cbn [mapM map fst snd]. destruct (H k v (or_introl eq_refl)) as (d & -> & L). cbn [slice].
    rewrite getkey_mask by (destruct Hok as (_ & _ & _ & Lf & _); congruence). cbn [bind]. rewrite IH by (intros k' v' H'; apply (H k' v'); right; exact H'). reflexivity.
  Qed.

  Lemma clusters_main : exists out, clusters name order fuel dist lt ev color pmu radius = Ok (MGrp "or" out) /\
    dkeys out = map last_name (filter (fun p => negb (has "latent" p)) (map fst (entries tree))) /\ NoDup (dkeys out) /\
    forall p v, p <> [] -> ~ In "latent"%string p -> at_path tree p = Some v ->
      exists d, dget (last_name p) out = Some (MArr d) /\ length d = length (final_rows ev) /\
        forall j i, nth_error (final_rows ev) j = Some i ->
          (nth_error d j = Some true <-> exists q, in_cluster dist lt ev color pmu radius agg kids (p ++ q) i).
  Proof using All.
    destruct (tree_shape name ev n fuel agg kids Hok Hname Hlat HF HT) as (EA & W & TS & ND).
    pose proof Hpok as (L1 & L2 & L3 & L4 & HS & HD & HFi).
    destruct (partition_ok dist lt HW n (e_edges ev) (e_status ev) (e_final ev) pmu L1 L2 L3 L4 HS HD HFi agg kids Hne) as (kids1 & EP & T1); [intros k c Hin; apply (TS k c Hin)|]. fold I in T1.
    destruct (leaves_ok kids1 T1) as (agg' & ELM & EL). match type of EL with _ = Ok ?l => set (leaves := l) in EL end.
    destruct (colors_ok kids1 T1) as (cs & HP & HC). destruct (background_names kids1 T1 cs HC HP) as (keys & EK & HK).
    unfold clusters. rewrite HT. cbn [bind]. rewrite EP. cbn [bind]. rewrite ELM. cbn [bind]. rewrite EL. cbn [bind]. fold leaves in EK. rewrite EK. cbn [bind].
    set (pr := fun k => match dget k leaves with Some d => match prune_leaf out_mask pmu radius d with Ok d' => d' | Err _ => [] end | None => [] end).
    assert (PL : forall k, In k (concat keys) -> exists d, dget k leaves = Some d /\ prune_leaf out_mask pmu radius d = Ok (pr k)).
    { intros k Hk. apply HK in Hk as (p & d0 & HL & <- & _). destruct (leaf_es1 kids1 T1 p d0 HL) as (d1 & _ & E1 & HI). destruct (leaf_pruned kids1 T1 p d0 d1 HL E1 HI) as (G & q & a & d' & _ & _ & E & _). fold leaves in G.
      exists d1. split; [exact G|]. unfold pr. rewrite G, E. reflexivity. }
    rewrite (prune_loop leaves out_mask pmu radius pr (concat keys) kids1 PL). cbn [bind].
    set (g := fun k d => if existsb (String.eqb k) (concat keys) then pr k else d).
    assert (Hg : forall k d, length d = n -> length (g k d) = n).
    { intros k d L. unfold g. destruct (existsb (String.eqb k) (concat keys)) eqn:E; [|exact L]. apply existsb_eqb_In in E. apply HK in E as (p & d0 & HL & <- & _).
      destruct (leaf_es1 kids1 T1 p d0 HL) as (d1 & _ & E1 & HI). destruct (leaf_pruned kids1 T1 p d0 d1 HL E1 HI) as (G & q & a & d' & _ & _ & E & L' & _). fold leaves in G. unfold pr. rewrite G, E. exact L'. }
    destruct (finish n g Hg agg kids1) as (agg2 & out & EF & DK & AR & AT); [apply G1; assumption | apply W1; assumption | rewrite EA; exact means_or | rewrite (paths1 kids1 T1); exact ND|].
    rewrite EF. cbn [bind]. rewrite (mapM_slice out AR). cbn [bind].
    rewrite (paths1 kids1 T1) in DK. set (out' := map _ out). assert (DK' : dkeys out' = dkeys out) by (unfold out', dkeys; rewrite map_map; reflexivity).
    assert (ND' : NoDup (dkeys out')) by (rewrite DK', DK; exact ND).
    rewrite dict_of_NoDup by exact ND'. exists out'. split; [reflexivity|]. split; [rewrite DK', DK; reflexivity|]. split; [exact ND'|].
    intros p v Hp HN E. destruct (top_at I agg kids kids1 p v T1 Hp HN E) as (v1 & E1 & HR). destruct (AT p v1 Hp HN E1) as (d & Ed & Ld & _ & Hd).
    exists (compress (e_final ev) d). split; [|split].
    - unfold out'. clear - Ed. induction out as [|[k w] r IH]; [discriminate|]. cbn [map dget fst snd] in *. destruct (String.eqb (last_name p) k); [injection Ed as ->; reflexivity | apply IH; exact Ed].
    - unfold final_rows. rewrite <- positions_filter. rewrite <- (map_length (fun _ : bool => tt)). pose proof (compress_positions (e_final ev) d (eq_trans L3 (eq_sym Ld))) as X. apply (f_equal (@length _)) in X. rewrite !map_length in *. congruence.
    - intros j i Hj. unfold final_rows in Hj. rewrite <- positions_filter in Hj. rewrite (compress_nth (e_final ev) d j i) by congruence. rewrite Hd.
      assert (KL : forall q d0 d1, leaf tree (p ++ q) d0 -> at_path (MGrp agg kids1) (p ++ q) = Some (MArr d1) -> I d0 d1 ->
                 (nth_error (g (last_name (p ++ q)) d1) i = Some true <-> nth_error d1 i = Some true /\ (background ev color tree (p ++ q) -> exists q0 a b, parton_of ev tree (p ++ q) q0 /\ nth_error pmu q0 = Some a /\ nth_error pmu i = Some b /\ near a b radius))).
      { intros q d0 d1 HL E2 HI. destruct (leaf_pruned kids1 T1 (p ++ q) d0 d1 HL E2 HI) as (G & q0 & a & d' & PQ & PA & PE & PL' & PH). fold leaves in G.
        assert (BK : existsb (String.eqb (last_name (p ++ q))) (concat keys) = true <-> background ev color tree (p ++ q)).
        { rewrite existsb_eqb_In, HK. split; [|intros B; exists (p ++ q)%list, d0; auto]. intros (p' & d0' & HL' & EN & B). assert (p' = (p ++ q)%list); [|congruence].
          destruct HL as [HL HLn], HL' as [HL' HLn']. apply (names_inj kids1 T1); try assumption; try congruence; intros F; [rewrite F in HL'; discriminate|]. rewrite F in HL. discriminate. }
        unfold g. destruct (existsb (String.eqb (last_name (p ++ q))) (concat keys)) eqn:EX.
        - apply proj1 in BK. specialize (BK eq_refl). unfold pr. rewrite G, PE. destruct (nth_error pmu i) as [b|] eqn:Eb.
          + rewrite (PH i b Eb). split.
            * intros (A & B). split; [exact A|]. intros _. exists q0, a, b. auto.
            * intros (A & B). split; [exact A|]. destruct (B BK) as (q1 & a1 & b1 & X1 & X2 & X3 & X4). rewrite (parton_unique _ _ _ PQ X1) in X2. congruence.
          + apply nth_error_None in Eb. split; intros F; exfalso.
            * assert (i < n) by (rewrite <- PL'; apply nth_error_Some; congruence). lia.
            * destruct F as (F & _). assert (LL : length d1 = n) by (apply (leaf_len kids1 T1 (p ++ q) d1 E2); apply HL). assert (i < n) by (rewrite <- LL; apply nth_error_Some; congruence). lia.
        - assert (NB : ~ background ev color tree (p ++ q)) by (intros B; apply BK in B; discriminate). tauto. }
      split.
      + intros (q & d1 & Eq & Nq & Ht). assert (E2 : at_path (MGrp agg kids1) (p ++ q) = Some (MArr d1)) by (rewrite at_path_app, E1; exact Eq).
        assert (NN : ~ In "latent"%string (p ++ q)) by (rewrite in_app_iff; tauto). assert (Hpq : (p ++ q)%list <> []) by (destruct p; [congruence|discriminate]).
        destruct (top_at_back I agg kids kids1 (p ++ q) (MArr d1) T1 Hpq NN E2) as (v0 & E0 & R0). destruct v0 as [d0|]; [|contradiction]. cbn in R0.
        exists q, d0, d1. assert (HL : leaf tree (p ++ q) d0) by (split; assumption). split; [exact HL|]. split; [apply R0|]. apply (KL q d0 d1 HL E2 R0). exact Ht.
      + intros (q & d0 & d1' & HL & HPt & Ht & HB). destruct (leaf_es1 kids1 T1 (p ++ q) d0 HL) as (d1 & _ & E2 & HI).
        assert (EQ : nth_error d1 i = Some true).
        { eapply partitioned_det; eauto. }
        exists q, d1. split; [rewrite at_path_app, E1 in E2; exact E2|]. split; [intros F; apply (proj2 HL), in_or_app; right; exact F|]. apply (KL q d0 d1 HL E2 HI). auto.
  Qed.
End Main.

(** C119: on a generated event whose hierarchy is not empty and whose leaves hold one outgoing parton each, clusters
    returns, in the order of the hierarchy, one mask over the final state for every name of the hierarchy but
    'latent': the union of the clusters of the leaves below that name. *)
Theorem C119_clusters : forall (D : Type) (dist : mom -> mom -> D) lt name order n fuel ev color pmu radius agg kids,
  (forall l, Permutation (order l) l) -> weak_order lt ->
  SpecHard.event_ok n ev -> SpecPart.event_ok n (e_edges ev) (e_status ev) (e_final ev) pmu -> length color = n ->
  (forall z, has_colon (name z) = false) -> (forall z, name z <> "latent"%string) ->
  length (hard_rows ev) <= fuel -> hierarchy name fuel ev None = Ok (MGrp agg kids) -> kids <> [] ->
  (forall v q, hadron_vertex (e_edges ev) (e_status ev) v -> outgoing ev q -> ~ final_desc (e_edges ev) (e_final ev) v q) ->
  (forall p d, leaf (MGrp agg kids) p d -> exists q, (nth_error d q = Some true /\ outgoing ev q) /\
              forall q', nth_error d q' = Some true -> outgoing ev q' -> q' = q) ->
  exists out, clusters name order fuel dist lt ev color pmu radius = Ok (MGrp "or" out) /\
    dkeys out = map last_name (filter (fun p => negb (has "latent" p)) (map fst (entries (MGrp agg kids)))) /\ NoDup (dkeys out) /\
    forall p v, p <> [] -> ~ In "latent"%string p -> at_path (MGrp agg kids) p = Some v ->
      exists d, dget (last_name p) out = Some (MArr d) /\ length d = length (final_rows ev) /\
        forall j i, nth_error (final_rows ev) j = Some i ->
          (nth_error d j = Some true <-> exists q, in_cluster dist lt ev color pmu radius agg kids (p ++ q) i).
Proof. intros. eapply clusters_main; eassumption. Qed.

(** The path ends at a leaf: nothing is below, and the mask is that leaf's own cluster. *)
Theorem C119_leaf : forall (D : Type) (dist : mom -> mom -> D) lt ev color pmu radius agg kids p q d i,
  leaf (MGrp agg kids) p d -> in_cluster dist lt ev color pmu radius agg kids (p ++ q) i -> q = [].
Proof.
  intros D dist lt ev color pmu radius agg kids p q d i (E & _) (d0 & d1 & (E0 & _) & _). rewrite at_path_app, E in E0. destruct q; [reflexivity | discriminate].
Qed.

(** With an empty hierarchy clusters fails. *)
Theorem C119_empty : forall (D : Type) (dist : mom -> mom -> D) lt name order fuel ev color pmu radius agg,
  hierarchy name fuel ev None = Ok (MGrp agg []) ->
  clusters name order fuel dist lt ev color pmu radius = Err TypeError.
Proof. intros D dist lt name order fuel ev color pmu radius agg HT. unfold clusters. rewrite HT. reflexivity. Qed.

(** ** A top decay: 'b' is a background leaf, 'u' and 'd~' form a singlet *)
Lemma reach_in (S : Z -> bool) es v a : S v = true -> forallb (fun e => negb (S (fst e)) || S (snd e)) es = true -> reach es v a -> S a = true.
Proof.
  intros HV HC HR. induction HR as [|x y HR IH Hin]; [exact HV|]. rewrite forallb_forall in HC. specialize (HC _ Hin). cbn in HC. rewrite IH in HC. exact HC.
Qed.

Module Demo.
  Definition ev : event := mkE
    [(1,3);(2,3);(3,4);(4,5);(4,6);(5,7);(5,8);(6,9);(7,10);(8,10);(9,11);(10,12);(10,13)]%Z
    [21;21;6;24;5;2;-1;5;2;-1;511;211;111]%Z
    [-21;-21;-22;-22;23;23;23;71;71;71;83;83;84]%Z
    [false;false;false;false;false;false;false;false;false;false;true;true;true].
  Definition color : list (Z * Z) := [(1,2);(2,3);(101,0);(0,0);(101,0);(102,0);(0,102);(101,0);(102,0);(0,102);(0,0);(0,0);(0,0)]%Z.
  Definition nm (z : Z) : string := if Z.eqb z 6 then "t" else if Z.eqb z 24 then "W+" else if Z.eqb z 5 then "b" else if Z.eqb z 2 then "u" else "d~".
  Definition pmu : list mom := map (fun i => let x := INR i in Mom (x + 1) (2 * x) (x - 5) (10 * x + 20))%R (seq 0 13).
  Definition dst (a b : mom) : R := Rabs (px a - px b).
  Definition rlt (x y : R) : bool := if Rlt_dec x y then true else false.
  Definition W_mask : mask := MGrp "or"
    [("u", MArr [false; false; false; true; false; true; false; false; true; false; false; true; true]);
     ("d~", MArr [false; false; false; true; false; false; true; false; false; true; false; true; true]);
     ("latent", MArr (repeat false 13))].
  Definition kids : list (string * mask) :=
    [("t", MGrp "or" [("W+", W_mask);
       ("b", MArr [false; false; true; false; true; false; false; true; false; false; true; false; false]);
       ("latent", MArr (repeat false 13))])].

  Example tree_ok : hierarchy nm 5 ev None = Ok (MGrp "or" kids).
  Proof. vm_compute. reflexivity. Qed.
  Example rows_ok : length (hard_rows ev) <= 5.
  Proof. cbn. lia. Qed.
  Example event_fine : SpecHard.event_ok 13 ev.
  Proof. repeat split; try (repeat constructor; unfold fits16, fits32; cbn; lia). Qed.
  Example order_fine : weak_order rlt.
  Proof.
    unfold weak_order, rlt. split; [|split].
    - intros x. destruct (Rlt_dec x x) as [H|_]; [lra | reflexivity].
    - intros x y z. destruct (Rlt_dec x y), (Rlt_dec y z), (Rlt_dec x z); intros; try congruence; lra.
    - intros x y z. destruct (Rlt_dec x z), (Rlt_dec x y), (Rlt_dec y z); intros; try congruence; auto; lra.
  Qed.
  Lemma hv v : hadron_vertex (e_edges ev) (e_status ev) v -> v = 9%Z \/ v = 10%Z.
  Proof.
    intros (i & w & s & A & B & C). do 13 (destruct i as [|i]; [cbn in A, B; injection A as <- <-; injection B as <-; try (left; reflexivity); try (right; reflexivity); exfalso; revert C; cbn; lia|]). destruct i; discriminate.
  Qed.
  Lemma fd v i : final_desc (e_edges ev) (e_final ev) v i -> (v = 9%Z -> i = 10) /\ (v = 10%Z -> i = 11 \/ i = 12).
  Proof.
    intros (F & a & b & E & R). split; intros ->.
    - apply (reach_in (fun x => Z.eqb x 9 || Z.eqb x 11)%bool) in R; [|reflexivity..]. do 13 (destruct i as [|i]; [cbn in F, E; try discriminate F; injection E as <- <-; first [reflexivity | discriminate R]|]). destruct i; discriminate.
    - apply (reach_in (fun x => Z.eqb x 10 || Z.eqb x 12 || Z.eqb x 13)%bool) in R; [|reflexivity..]. do 13 (destruct i as [|i]; [cbn in F, E; try discriminate F; injection E as <- <-; first [discriminate R | lia]|]). destruct i; discriminate.
  Qed.
  Example part_fine : SpecPart.event_ok 13 (e_edges ev) (e_status ev) (e_final ev) pmu.
  Proof.
    repeat split; try reflexivity.
    - repeat constructor; unfold fits16; cbn; lia.
    - intros v w i A B F1 F2. apply hv in A, B. apply fd in F1, F2. destruct A as [->| ->], B as [->| ->]; try reflexivity; exfalso; destruct F1 as [F1 F1'], F2 as [F2 F2']; specialize (F1 eq_refl) || specialize (F1' eq_refl); specialize (F2 eq_refl) || specialize (F2' eq_refl); lia.
    - intros v i A F (a & H). apply hv in A. do 13 (destruct i as [|i]; [cbn in F, H; try discriminate F; injection H as <- <-; destruct A; discriminate|]). destruct i; discriminate.
  Qed.
  Example names_fine : (forall z, has_colon (nm z) = false) /\ (forall z, nm z <> "latent"%string).
  Proof. split; intros z; unfold nm; repeat (destruct (Z.eqb _ _); [first [reflexivity | discriminate]|]); first [reflexivity | discriminate]. Qed.
  Lemma out q : outgoing ev q -> q = 4 \/ q = 5 \/ q = 6.
  Proof. intros (z & E & H). do 13 (destruct q as [|q]; [cbn in E; injection E as <-; cbn in H; first [discriminate H | lia]|]). destruct q; discriminate. Qed.
  Example partons_fine v q : hadron_vertex (e_edges ev) (e_status ev) v -> outgoing ev q -> ~ final_desc (e_edges ev) (e_final ev) v q.
  Proof. intros _ H (F & _). apply out in H as [->|[->| ->]]; discriminate. Qed.
  Lemma wf_tree : wf (MGrp "or" kids).
  Proof. cbn. repeat split; repeat constructor; cbn; intuition discriminate. Qed.
  Example leaf_fine p d : leaf (MGrp "or" kids) p d ->
    exists q, (nth_error d q = Some true /\ outgoing ev q) /\ forall q', nth_error d q' = Some true -> outgoing ev q' -> q' = q.
  Proof.
    intros (E & HN). assert (H : In (p, MArr d) (entries (MGrp "or" kids))) by (apply entries_at_path; [exact wf_tree | split; [intros ->; discriminate | exact E]]).
    cbn in H. repeat (destruct H as [H|H]; [try discriminate H; injection H as <- <-; try (exfalso; apply HN; cbn; tauto)|]); [..|destruct H].
    - exists 5. split; [split; [reflexivity | exists 23%Z; split; reflexivity]|]. intros q' H1 H2. apply out in H2 as [->|[->| ->]]; first [reflexivity | discriminate].
    - exists 6. split; [split; [reflexivity | exists 23%Z; split; reflexivity]|]. intros q' H1 H2. apply out in H2 as [->|[->| ->]]; first [reflexivity | discriminate].
    - exists 4. split; [split; [reflexivity | exists 23%Z; split; reflexivity]|]. intros q' H1 H2. apply out in H2 as [->|[->| ->]]; first [reflexivity | discriminate].
  Qed.
  Example run radius : exists out, clusters nm (fun l => l) 5 dst rlt ev color pmu radius = Ok (MGrp "or" out) /\ dkeys out = ["t"; "W+"; "u"; "d~"; "b"]%string.
  Proof.
    destruct (C119_clusters R dst rlt nm (fun l => l) 13 5 ev color pmu radius "or" kids) as (out & E & K & _).
    - intros l. apply Permutation_refl.
    - exact order_fine.
    - exact event_fine.
    - exact part_fine.
    - reflexivity.
    - apply names_fine.
    - apply names_fine.
    - cbn. lia.
    - exact tree_ok.
    - discriminate.
    - exact partons_fine.
    - exact leaf_fine.
    - exists out. split; [exact E|]. rewrite K. reflexivity.
  Qed.
  (** 'b' is pruned around its parton; 'u' is not pruned. *)
  Example b_background : background ev color (MGrp "or" kids) ["t"; "b"]%string.
  Proof.
    split; [exists (101, 0)%Z; split; [exists 4; split; [eexists; split; [split; [reflexivity | cbn; intuition discriminate]|]; split; [reflexivity | exists 23%Z; split; reflexivity] | reflexivity] | discriminate]|].
    intros (ps & Hin & L & ND & HC & HX).
    assert (LC : forall p c, leaf_color ev color (MGrp "or" kids) p c -> p = ["t"; "b"]%string /\ c = (101, 0)%Z \/ p <> ["t"; "b"]%string /\ (c = (102, 0)%Z \/ c = (0, 102)%Z)).
    { intros p c (q & (d & (E & HN) & Hd & HO) & Hc). assert (H : In (p, MArr d) (entries (MGrp "or" kids))) by (apply entries_at_path; [exact wf_tree | split; [intros ->; discriminate | exact E]]).
      apply out in HO. cbn in H. repeat (destruct H as [H|H]; [try discriminate H; injection H as <- <-; destruct HO as [->|[->| ->]]; try discriminate Hd; cbn in Hc; injection Hc as <-; first [left; split; reflexivity | right; split; [discriminate | tauto]]|]). destruct H. }
    destruct (HX 101%Z) as [H1 _]. destruct H1 as (p & c & _ & Hc & Ex).
    - exists ["t"; "b"]%string, (101, 0)%Z. split; [exact Hin|]. split; [|reflexivity]. destruct (HC _ Hin) as (c & Hc & _). destruct (LC _ _ Hc) as [[_ ->]|[F _]]; [exact Hc | congruence].
    - destruct (LC _ _ Hc) as [[_ ->]|[_ [->| ->]]]; discriminate Ex.
  Qed.
End Demo.

Print Assumptions C119_clusters.
Print Assumptions C119_leaf.
Print Assumptions C119_empty.
