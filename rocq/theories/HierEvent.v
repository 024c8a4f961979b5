(** The hierarchy of an event, from the tree built on its ancestry matrix. *)
From Verif Require Import Prelude Dict Keys MaskTypes SpecMask Mask MaskProofs SpecArray SpecAdj Arrays ArraysProofs Composite SpecComposite CompositeProofs Adjacency AdjacencyProofs Descend DescendProofs SpecHard Hard HardProofs SpecHier Hierarchy HierProofs TreeProofs.

Lemma named_fun names k1 k2 : named names k1 -> named names k2 -> k1 = k2.
Proof.
  intros (L1 & _ & H1) (L2 & _ & H2). apply nth_error_ext. intros j.
  destruct (nth_error names j) as [nm|] eqn:E; [rewrite (H1 j nm E), (H2 j nm E); reflexivity|].
  apply nth_error_None in E. rewrite (proj2 (nth_error_None k1 j)), (proj2 (nth_error_None k2 j)) by lia. reflexivity.
Qed.

Lemma compress_nth {A} (m : list bool) (l : list A) j p : length m = length l -> nth_error (positions m) j = Some p -> nth_error (compress m l) j = nth_error l p.
Proof.
  intros L H. pose proof (compress_positions m l L) as E. apply (f_equal (fun x => nth_error x j)) in E.
  rewrite !nth_error_map', H in E. cbn in E. destruct (nth_error (compress m l) j) as [x|]; cbn in E; congruence.
Qed.

Lemma positions_length m : length (positions m) = count_true m.
Proof.
  unfold positions, count_true, enumerate. rewrite map_length. generalize 0. induction m as [|b m IH]; intros n; [reflexivity|].
  cbn. destruct b; cbn; auto.
Qed.

Section Event.
  Context (name : Z -> string) (ev : event) (n : nat).
  Hypothesis Hok : event_ok n ev.
  Hypothesis Hname : forall z, has_colon (name z) = false.
  Hypothesis Hlat : forall z, name z <> "latent"%string.
  Let hd := map hard_status (e_status ev).

  (** Names and masks of the hard partons. *)
  Lemma hard_parts : exists names ds,
    hard_descendants name ev None false true = Ok (MGrp "or" (combine names (map MArr ds))) /\
    names = pdgs_to_keys (map name (map (fun i => nth i (e_pdg ev) 0%Z) (hard_rows ev))) /\
    NoDup names /\ ~ In "latent"%string names /\ length names = length (hard_rows ev) /\ length ds = length (hard_rows ev) /\
    forall j p, nth_error (hard_rows ev) j = Some p -> length (nth j ds []) = n /\
      forall i, nth_error (nth j ds []) i = Some true <-> i = p \/ descends (e_edges ev) p i.
  Proof.
    destruct (hard_all name ev n Hok Hname) as (kids & E & HN & HK).
    set (ds := map (fun p => match snd p with MArr d => d | MGrp _ _ => [] end) kids).
    assert (LK : length kids = length (hard_rows ev)).
    { destruct HN as (L & _). unfold dkeys in L. rewrite !map_length in L. exact L. }
    assert (EK : kids = combine (dkeys kids) (map MArr ds)).
    { unfold ds. assert (G : Forall (fun p => exists d, snd p = MArr d) kids).
      { apply Forall_nth_error. intros j x Hx. destruct (nth_error_in_range (hard_rows ev) j) as (p & Hp); [rewrite <- LK; apply nth_error_Some; congruence|].
        destruct (HK j p Hp) as (k & m & Hm & _). rewrite Hm in Hx. injection Hx as <-. cbn. eauto. }
      clear -G. induction G as [|[k v] kids [d Hd] G IH]; [reflexivity|]. cbn in *. subst v. f_equal. exact IH. }
    assert (EN : dkeys kids = pdgs_to_keys (map name (map (fun i => nth i (e_pdg ev) 0%Z) (hard_rows ev)))).
    { eapply named_fun; [exact HN|]. rewrite map_map. apply keys_named. apply Forall_forall. intros s H. apply in_map_iff in H as (i & <- & _). apply Hname. }
    exists (dkeys kids), ds. split; [|split; [exact EN|split; [apply HN|split; [|split; [|split]]]]].
    - rewrite <- EK. exact E.
    - intros F. apply In_nth_error in F as (j & Hj). destruct HN as (L & _ & H).
      destruct (nth_error_in_range (map (fun i => name (nth i (e_pdg ev) 0%Z)) (hard_rows ev)) j) as (nm & Hnm); [rewrite <- L; apply nth_error_Some; congruence|].
      pose proof (H j nm Hnm) as K. rewrite Hj in K. apply nth_error_In, in_map_iff in Hnm as (i & <- & _).
      destruct (Nat.eqb _ 1); injection K as K; [exact (Hlat _ (eq_sym K))|].
      pose proof (colon_in (name (nth i (e_pdg ev) 0%Z)) (decimal (count_occ string_dec (firstn j (map (fun i => name (nth i (e_pdg ev) 0%Z)) (hard_rows ev))) (name (nth i (e_pdg ev) 0%Z))))) as C.
      cbn [append] in C. rewrite <- K in C. discriminate C.
    - unfold dkeys. rewrite map_length. exact LK.
    - unfold ds. rewrite map_length. exact LK.
    - intros j p Hj. destruct (HK j p Hj) as (k & m & Hm & HL & HT).
      assert (D : nth j ds [] = m).
      { apply nth_error_nth. unfold ds. rewrite nth_error_map', Hm. reflexivity. }
      rewrite D. split; [exact HL | exact HT].
  Qed.

  Lemma hard_rows_NoDup : NoDup (hard_rows ev).
  Proof. apply NoDup_filter, seq_NoDup. Qed.

  Lemma inter_data : exists inter, (match hard_noninc (e_status ev) with
         | MGrp _ kids => match dget "intermediate" kids with Some m => data m | None => Err KeyError end
         | MArr _ => Err TypeError end) = Ok inter /\ (any inter = true <-> has_intermediate ev).
  Proof.
    unfold hard_noninc, hard_mask. cbn [ddel dget String.eqb Ascii.eqb Bool.eqb data]. eexists. split; [reflexivity|]. unfold any, has_intermediate.
    assert (F : Forall fits16 (e_status ev)) by apply Hok. induction F as [|z l Hz F IH]; cbn [map existsb In].
    - split; [discriminate | intros (z & [] & _)].
    - rewrite orb_true_iff, IH. rewrite abs16_code by (assumption || lia). rewrite Z.eqb_eq. split.
      + intros [E|(y & Hy & E)]; [exists z; auto | exists y; auto].
      + intros (y & [->|Hy] & E); [left; auto | right; eauto].
  Qed.

  Section Parts.
    Context (names : list string) (ds : list (list bool)).
    Hypothesis ND : NoDup names.
    Hypothesis NL : ~ In "latent"%string names.
    Hypothesis LN : length names = length (hard_rows ev).
    Hypothesis LD : length ds = length (hard_rows ev).
    Hypothesis HD : forall j p, nth_error (hard_rows ev) j = Some p -> length (nth j ds []) = n /\
      forall i, nth_error (nth j ds []) i = Some true <-> i = p \/ descends (e_edges ev) p i.
    Definition hrows : list (list bool) := map (compress hd) ds.

    Lemma ds_all d : In d ds -> length d = n /\ In true d.
    Proof.
      intros H. apply In_nth with (d := []) in H as (j & Hj & <-). destruct (nth_error_in_range (hard_rows ev) j) as (p & Hp); [lia|].
      destruct (HD j p Hp) as (L & HT). split; [exact L|]. eapply nth_error_In. apply HT. left. reflexivity.
    Qed.

    Lemma hrows_square : square (length names) hrows.
    Proof.
      split; [unfold hrows; rewrite map_length; congruence|]. apply Forall_forall. intros r H. unfold hrows in H. apply in_map_iff in H as (d & <- & H).
      apply ds_all in H as [H _]. rewrite compress_length by (unfold hd; rewrite (hd_len ev n Hok); congruence).
      rewrite <- positions_length. unfold hd. rewrite hd_rows. congruence.
    Qed.

    Lemma hrows_anc i j : anc_of hrows i j <-> anc_ev ev i j.
    Proof.
      unfold anc_of, anc_ev, entry, hrows. rewrite nth_error_map'. split.
      - intros [Hn H]. split; [exact Hn|]. destruct (nth_error ds i) as [d|] eqn:Ed; [|discriminate]. cbn in H.
        assert (Ld : length d = n) by (apply ds_all; eapply nth_error_In; exact Ed).
        assert (LH : length hd = length d) by (unfold hd; rewrite (hd_len ev n Hok); congruence).
        destruct (nth_error_in_range (hard_rows ev) i) as (p & Hp); [rewrite <- LD; apply nth_error_Some; congruence|].
        destruct (nth_error_in_range (hard_rows ev) j) as (q & Hq).
        { rewrite <- (hd_rows ev). fold hd. rewrite positions_length, <- (compress_length hd d LH). apply nth_error_Some. congruence. }
        exists p, q. split; [exact Hp|]. split; [exact Hq|]. rewrite (compress_nth hd d j q LH) in H by (unfold hd; rewrite hd_rows; exact Hq).
        destruct (HD i p Hp) as (_ & HT). rewrite (nth_error_nth _ _ _ Ed) in HT. apply HT in H as [->|H]; [|exact H].
        exfalso. apply Hn. apply (proj1 (NoDup_nth_error (hard_rows ev)) hard_rows_NoDup); [apply nth_error_Some; congruence | congruence].
      - intros (Hn & p & q & Hp & Hq & H). split; [exact Hn|].
        destruct (nth_error_in_range ds i) as (d & Ed); [rewrite LD; apply nth_error_Some; congruence|]. rewrite Ed. cbn.
        assert (Ld : length d = n) by (apply ds_all; eapply nth_error_In; exact Ed).
        rewrite (compress_nth hd d j q) by (unfold hd; first [rewrite hd_rows; exact Hq | rewrite (hd_len ev n Hok); congruence]).
        destruct (HD i p Hp) as (_ & HT). rewrite (nth_error_nth _ _ _ Ed) in HT. apply HT. right. exact H.
    Qed.

    Lemma slice_hard : slice (KMask hd) (MGrp "or" (combine names (map MArr ds))) = Ok (MGrp "or" (combine names (map MArr hrows))).
    Proof.
      cbn [slice]. assert (G : forall (ns : list string) l, (forall d, In d l -> length d = n) ->
        mapM (fun p => v <- slice (KMask hd) (snd p) ;; Ok (fst p, v)) (combine ns (map MArr l)) = Ok (combine ns (map MArr (map (compress hd) l)))).
      { induction ns as [|k ns IH]; intros [|d l] HL; cbn [combine map mapM]; auto. cbn [slice snd fst].
        rewrite getkey_mask by (unfold hd; rewrite (hd_len ev n Hok); symmetry; apply HL; left; reflexivity).
        cbn [bind]. rewrite IH by (intros x Hx; apply HL; right; exact Hx). reflexivity. }
      rewrite G by (intros d H; apply ds_all in H; apply H). reflexivity.
    Qed.

    Lemma select_all agg (kids : list (string * mask)) : NoDup (dkeys kids) -> select_keys (dkeys kids) agg kids = Ok (MGrp agg kids).
    Proof.
      intros NK. unfold select_keys.
      assert (E : mapM (fun k => match dget k kids with Some v => Ok (k, v) | None => Err KeyError end) (dkeys kids) = Ok kids).
      { unfold dkeys. rewrite mapM_map. rewrite (mapM_ext _ (fun p => Ok p)); [rewrite mapM_pure, map_id; reflexivity|].
        intros [k v] H. cbn. rewrite (In_dget k v kids NK H). reflexivity. }
      rewrite E. cbn [bind]. rewrite dict_of_NoDup by exact NK. reflexivity.
    Qed.

    (** Marking the final partons changes nothing: their own bits are set already. *)
    Lemma mark_final (l : list (string * nat)) : (forall k i, In (k, i) l -> exists j, nth_error names j = Some k /\ nth_error (hard_rows ev) j = Some i) ->
      foldM (fun g p => set_data_bit g (fst p) (snd p)) l (combine names (map MArr ds)) = Ok (combine names (map MArr ds)).
    Proof.
      induction l as [|[k i] l IH]; intros H; [reflexivity|]. cbn [foldM fst snd].
      destruct (H k i (or_introl eq_refl)) as (j & Hk & Hi).
      assert (KD : NoDup (dkeys (combine names (map MArr ds)))) by (unfold dkeys; rewrite combine_fst by (rewrite map_length; congruence); exact ND).
      destruct (nth_error_in_range ds j) as (d & Ed); [rewrite LD; apply nth_error_Some; congruence|].
      assert (G : dget k (combine names (map MArr ds)) = Some (MArr d)).
      { apply In_dget; [exact KD|]. assert (C : nth_error (combine names (map MArr ds)) j = Some (k, MArr d)).
        { clear -Hk Ed. revert ds j Hk Ed. induction names as [|x l IH]; intros [|y ds] [|j] Hk Ed; cbn in *; try discriminate; [congruence | auto]. }
        eapply nth_error_In; exact C. }
      assert (Ld : length d = n) by (apply ds_all; eapply nth_error_In; exact Ed).
      assert (T : nth_error d i = Some true).
      { destruct (HD j i Hi) as (_ & HT). rewrite (nth_error_nth _ _ _ Ed) in HT. apply HT. left. reflexivity. }
      unfold set_data_bit at 1. rewrite G. cbn [data bind].
      assert (Hi' : i < length d) by (apply nth_error_Some; congruence).
      destruct (Nat.ltb_spec i (length d)); [|lia].
      assert (Sd : set_nth d i true = d).
      { apply nth_error_ext. intros x. rewrite set_nth_nth. destruct (Nat.eqb_spec i x) as [<-|]; [rewrite T; reflexivity | reflexivity]. }
      rewrite Sd. cbn [bind].
      assert (DS : dset k (MArr d) (combine names (map MArr ds)) = combine names (map MArr ds)).
      { generalize (combine names (map MArr ds)) G. clear. induction l as [|[k' v'] l IH]; cbn; intros G; [discriminate|].
        destruct (String.eqb_spec k k') as [->|]; [congruence|]. rewrite IH by exact G. reflexivity. }
      rewrite DS. apply IH. intros k' i' H'. apply H. right; exact H'.
    Qed.

    Lemma final_pairs k i : In (k, i) (combine (compress (compress hd (map2 andb hd (e_final ev))) names) (positions (map2 andb hd (e_final ev)))) ->
      exists j, nth_error names j = Some k /\ nth_error (hard_rows ev) j = Some i.
    Proof.
      assert (LF : length (e_final ev) = length hd) by (unfold hd; rewrite (hd_len ev n Hok); apply Hok).
      intros H.
      assert (G : forall (h f : list bool) (ns : list string) a k i, length f = length h -> length ns = count_true h ->
         In (k, i) (combine (compress (compress h (map2 andb h f)) ns) (map fst (filter (fun p => snd p) (enum_from a (map2 andb h f))))) ->
         exists j, nth_error ns j = Some k /\ nth_error (map fst (filter (fun p => snd p) (enum_from a h))) j = Some i).
      { clear. unfold count_true. induction h as [|b h IH]; intros [|c f] ns a k i L1 L2 H; cbn in *; try discriminate; try contradiction.
        destruct b; cbn in *.
        - destruct ns as [|x ns]; [discriminate|]. destruct c; cbn in *.
          + destruct H as [E|H]; [injection E as <- <-; exists 0; auto|]. destruct (IH f ns (S a) k i) as (j & H1 & H2); auto. exists (S j); auto.
          + destruct (IH f ns (S a) k i) as (j & H1 & H2); auto. exists (S j); auto.
        - destruct (IH f ns (S a) k i) as (j & H1 & H2); auto. exists j; auto. }
      destruct (G hd (e_final ev) names 0 k i) as (j & H1 & H2); auto.
      - rewrite LN, <- hd_rows. fold hd. apply positions_length.
      - exists j. split; [exact H1|]. rewrite <- hd_rows. fold hd. exact H2.
    Qed.

    Lemma hier_run fuel : names = pdgs_to_keys (map name (map (fun i => nth i (e_pdg ev) 0%Z) (hard_rows ev))) -> has_intermediate ev ->
      hard_descendants name ev None false true = Ok (MGrp "or" (combine names (map MArr ds))) ->
      hierarchy name fuel ev None = make_tree fuel (flat_of names hrows) (combine names (map MArr ds)) (e_edges ev).
    Proof.
      intros EN HI ED. unfold hierarchy. rewrite hard_data by apply Hok. fold hd. cbn [bind]. unfold hd at 1. rewrite (hard_pdg ev n Hok). cbn [bind].
      rewrite ED, <- EN. cbn [bind]. destruct inter_data as (inter & -> & HA). apply HA in HI. cbn [bind]. rewrite HI. cbn [negb].
      rewrite slice_hard. cbn [bind].
      assert (KR : dkeys (combine names (map MArr hrows)) = names).
      { apply combine_fst. unfold hrows. rewrite !map_length. congruence. }
      rewrite <- KR at 1. rewrite select_all by (rewrite KR; exact ND). cbn [bind]. rewrite flat_ok by (assumption || apply hrows_square). cbn [bind].
      unfold broadcast2. assert (LF : length (e_final ev) = length hd) by (unfold hd; rewrite (hd_len ev n Hok); apply Hok).
      rewrite LF, Nat.eqb_refl. cbn [bind]. rewrite getkey_mask by (rewrite map2_length; lia). cbn [bind].
      destruct (any (map2 andb hd (e_final ev))); [|reflexivity].
      rewrite mark_final by apply final_pairs. reflexivity.
    Qed.
  End Parts.
End Event.
