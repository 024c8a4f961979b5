From Verif Require Import Prelude Dict Keys MaskTypes SpecArray SpecAdj Arrays ArraysProofs Composite SpecComposite CompositeProofs Adjacency AdjacencyProofs Descend.

(** * Breadth first search *)

Inductive nreach (succ : nat -> list nat) (h : nat) : nat -> Prop :=
| NR_refl : nreach succ h h
| NR_step a b : nreach succ h a -> In b (succ a) -> nreach succ h b.

Section BFS.
  Context (size : nat) (succ : nat -> list nat) (head : nat).
  Hypothesis succ_lt : forall a b, In b (succ a) -> b < size.
  Hypothesis head_lt : head < size.

  (** State invariant. *)
  Record inv (nodes : list nat) (pred : list (option nat)) : Prop := {
    i_len : length pred = size;
    i_nd : NoDup nodes;
    i_head : In head nodes;
    i_lt : forall c, In c nodes -> c < size;
    i_pred : forall c, c < size -> (exists p, nth_error pred c = Some (Some p)) <-> (In c nodes /\ c <> head);
    i_reach : forall c, In c nodes -> nreach succ head c }.

  Lemma inner_inv p succs nodes pred :
    In p nodes -> (forall c, In c succs -> In c (succ p)) -> inv nodes pred ->
    let st := bfs_inner head p succs (nodes, pred) in
    inv (fst st) (snd st) /\ (exists ext, fst st = nodes ++ ext) /\ forall c, In c succs -> In c (fst st).
  Proof.
    intros Hp Hs HI. revert nodes pred Hp HI. induction succs as [|c succs IH]; intros nodes pred Hp HI; cbn zeta.
    - cbn. split; [exact HI|]. split; [exists []; rewrite app_nil_r; reflexivity | intros c []].
    - assert (Hs' : forall c', In c' succs -> In c' (succ p)) by (intros c' Hc'; apply Hs; right; exact Hc').
      specialize (IH Hs'). unfold bfs_inner in *. cbn [fold_left].
      assert (Hc : In c (succ p)) by (apply Hs; left; reflexivity).
      assert (Cs : c < size) by (eapply succ_lt; exact Hc).
      destruct (Nat.eqb_spec c head) as [E|E].
      + subst c. destruct (IH nodes pred Hp HI) as (I1 & I2 & I3). split; [exact I1|]. split; [exact I2|].
        intros c' [<-|Hc']; [|apply I3; exact Hc']. destruct I2 as (ext & ->). apply in_or_app. left. apply HI.
      + cbn [fst snd]. destruct (nth_error pred c) as [[q|]|] eqn:Ec.
        * destruct (IH nodes pred Hp HI) as (I1 & I2 & I3). split; [exact I1|]. split; [exact I2|].
          intros c' [<-|Hc']; [|apply I3; exact Hc']. destruct I2 as (ext & ->). apply in_or_app. left.
          apply (i_pred _ _ HI c Cs). eauto.
        * assert (HN : ~ In c nodes).
          { intros Hin. destruct (proj2 (i_pred _ _ HI c Cs) (conj Hin E)) as (q & Hq). congruence. }
          assert (HI' : inv (nodes ++ [c]) (set_nth pred c (Some p))).
          { destruct HI as [L ND H0 HL HPd HR]. constructor.
            - rewrite set_nth_length. exact L.
            - rewrite <- (rev_involutive (nodes ++ [c])). apply NoDup_rev. rewrite rev_app_distr. cbn.
              constructor; [rewrite <- in_rev; exact HN | apply NoDup_rev; exact ND].
            - apply in_or_app. left; exact H0.
            - intros d Hd. apply in_app_or in Hd as [Hd|[<-|[]]]; [apply HL; exact Hd | exact Cs].
            - intros d Hd. rewrite set_nth_nth. destruct (Nat.eqb_spec c d) as [<-|Hn].
              + rewrite Ec. split; [intros _; split; [apply in_or_app; right; left; reflexivity | exact E] | intros _; eauto].
              + rewrite (HPd d Hd). rewrite in_app_iff. cbn. intuition congruence.
            - intros d Hd. apply in_app_or in Hd as [Hd|[<-|[]]]; [apply HR; exact Hd|].
              eapply NR_step; [apply HR; exact Hp | exact Hc]. }
          destruct (IH (nodes ++ [c]) (set_nth pred c (Some p))) as (I1 & I2 & I3);
            [apply in_or_app; left; exact Hp | exact HI' |]. split; [exact I1|]. split.
          -- destruct I2 as (ext & ->). exists (c :: ext). rewrite <- app_assoc. reflexivity.
          -- intros c' [<-|Hc']; [|apply I3; exact Hc']. destruct I2 as (ext & ->).
             apply in_or_app. left. apply in_or_app. right; left; reflexivity.
        * exfalso. apply nth_error_None in Ec. rewrite (i_len _ _ HI) in Ec. lia.
  Qed.

  Lemma inv_length nodes pred : inv nodes pred -> length nodes <= size.
  Proof.
    intros HI. rewrite <- (seq_length size 0). apply NoDup_incl_length; [apply HI|].
    intros c Hc. apply in_seq. pose proof (i_lt _ _ HI c Hc). lia.
  Qed.

  Lemma loop_ok fuel i nodes pred :
    inv nodes pred -> size <= i + fuel -> i <= length nodes ->
    (forall k a b, k < i -> nth_error nodes k = Some a -> In b (succ a) -> In b nodes) ->
    exists pred', bfs_loop fuel succ head i nodes pred = Ok pred' /\ length pred' = size /\
      forall c, c < size -> (exists p, nth_error pred' c = Some (Some p)) <-> (nreach succ head c /\ c <> head).
  Proof.
    revert i nodes pred. induction fuel as [|fuel IH]; intros i nodes pred HI HF Hi HC; cbn [bfs_loop];
      destruct (nth_error nodes i) as [p|] eqn:Ep.
    - exfalso. assert (i < length nodes) by (apply nth_error_Some; congruence). pose proof (inv_length _ _ HI). lia.
    - exists pred. split; [reflexivity|]. split; [apply HI|]. intros c Hc. rewrite (i_pred _ _ HI c Hc).
      apply nth_error_None in Ep.
      assert (Cl : forall d, nreach succ head d -> In d nodes).
      { induction 1 as [|a b Ha IHa Hb]; [apply HI|]. apply In_nth_error in IHa as (k & Hk).
        eapply (HC k a b); eauto. assert (k < length nodes) by (apply nth_error_Some; congruence). lia. }
      split; intros [H1 H2]; split; auto. apply (i_reach _ _ HI); exact H1.
    - assert (Hp : In p nodes) by (eapply nth_error_In; exact Ep).
      pose proof (inner_inv p (succ p) nodes pred Hp (fun c H => H) HI) as (I1 & (ext & I2) & I3). cbv zeta in *.
      apply IH; [exact I1 | lia | rewrite I2, app_length; assert (i < length nodes) by (apply nth_error_Some; congruence); lia |].
      intros k a b Hk Ha Hb. destruct (Nat.eq_dec k i) as [->|Hn].
        * rewrite I2, nth_error_app1 in Ha by (apply nth_error_Some; congruence). assert (a = p) by congruence; subst a. apply I3; exact Hb.
        * assert (k < i) by lia. rewrite I2, nth_error_app1 in Ha by (assert (i < length nodes) by (apply nth_error_Some; congruence); lia).
          rewrite I2. apply in_or_app. left. eapply HC; eauto.
    - exists pred. split; [reflexivity|]. split; [apply HI|]. intros c Hc. rewrite (i_pred _ _ HI c Hc).
      apply nth_error_None in Ep.
      assert (Cl : forall d, nreach succ head d -> In d nodes).
      { induction 1 as [|a b Ha IHa Hb]; [apply HI|]. apply In_nth_error in IHa as (k & Hk).
        eapply (HC k a b); eauto. assert (k < length nodes) by (apply nth_error_Some; congruence). lia. }
      split; intros [H1 H2]; split; auto. apply (i_reach _ _ HI); exact H1.
  Qed.

  Lemma bft_ok : exists idx, bft_indices size succ head = Ok idx /\
    forall c, In c idx <-> (nreach succ head c /\ c <> head).
  Proof.
    assert (HI : inv [head] (repeat None size)).
    { constructor.
      - apply repeat_length.
      - repeat constructor. intros [].
      - left; reflexivity.
      - intros c [<-|[]]. exact head_lt.
      - intros c Hc. split.
        + intros (p & Hp). apply nth_error_In, repeat_spec in Hp. discriminate.
        + intros [[<-|[]] H]. congruence.
      - intros c [<-|[]]. constructor. }
    destruct (loop_ok size 0 [head] (repeat None size) HI) as (pred & Hp & HL & H); [lia | cbn; lia | intros; lia |].
    unfold bft_indices. rewrite Hp. cbn [bind]. eexists. split; [reflexivity|]. intros c. rewrite in_map_iff. split.
    - intros ([d o] & <- & Hin). apply filter_In in Hin as [Hin Ho]. cbn in *. destruct o as [p|]; [|discriminate].
      apply enumerate_In in Hin. assert (d < size) by (rewrite <- HL; apply nth_error_Some; congruence). apply H; eauto.
    - intros [HR Hn].
      assert (Hc : c < size) by (destruct HR as [|a b Ha Hb]; [congruence | eapply succ_lt; exact Hb]).
      destruct (proj2 (H c Hc) (conj HR Hn)) as (p & Hp'). exists (c, Some p). split; [reflexivity|].
      apply filter_In. split; [apply enumerate_In; exact Hp' | reflexivity].
  Qed.
End BFS.

(** * vertex_descendants *)

Lemma nins_In z l x : In x (nins z l) <-> x = z \/ In x l.
Proof.
  induction l as [|y l IH]; cbn [nins In].
  - split; intros [H|[]]; auto.
  - destruct (Nat.ltb_spec z y); [|destruct (Nat.eqb_spec z y) as [->|]]; cbn [In]; rewrite ?IH; split;
      intros H0; repeat (destruct H0 as [H0|H0]); auto.
Qed.
Lemma csr_row_In {F} (s : coo F) i j : In j (csr_row s i) <-> exists e, In e (c_ent s) /\ row_of e = i /\ col_of e = j.
Proof.
  unfold csr_row.
  assert (E : forall l, In j (fold_right nins [] l) <-> In j l).
  { induction l as [|x l IH]; cbn; [tauto|]. rewrite nins_In, IH. intuition. }
  rewrite E, in_map_iff. split.
  - intros (e & <- & He). apply filter_In in He as [He Hr]. apply Nat.eqb_eq in Hr. eauto.
  - intros (e & He & Hr & Hc). exists e. split; [exact Hc|]. apply filter_In. rewrite Nat.eqb_eq. auto.
Qed.

Definition signed_coo (es : edges) : coo bool :=
  mkCoo (length (uni es)) (map (fun e => (relab es e, (0 <? snd e)%Z)) es).
Lemma sparse_signed_ok es : es <> [] -> sparse_signed es = Ok (signed_coo es).
Proof. intros H. unfold sparse_signed. rewrite to_sparse_ok by exact H. rewrite combine_map_r. reflexivity. Qed.

Lemma csr_signed es i j : In j (csr_row (signed_coo es) i) <-> exists a b, In (a, b) es /\ rank (uni es) a = i /\ rank (uni es) b = j.
Proof.
  rewrite csr_row_In. cbn [signed_coo c_ent]. split.
  - intros (e & He & Hr & Hc). apply in_map_iff in He as ([a b] & <- & Hin). exists a, b. auto.
  - intros (a & b & Hin & Hr & Hc). exists (relab es (a, b), (0 <? b)%Z). split; [apply in_map_iff; exists (a, b); auto | auto].
Qed.

Lemma nreach_reach es v : In v (uni es) ->
  forall c, nreach (csr_row (signed_coo es)) (rank (uni es) v) c <-> exists w, reach es v w /\ In w (uni es) /\ rank (uni es) w = c.
Proof.
  intros Hv c. split.
  - induction 1 as [|i j Hi (w & Hw & Hu & Er) Hj]; [exists v; repeat split; [constructor | exact Hv]|].
    apply csr_signed in Hj as (a & b & Hin & Ea & Eb).
    assert (a = w) by (eapply rank_inj; [apply (uni_src es (a, b)); exact Hin | exact Hu | congruence]). subst w.
    exists b. split; [eapply R_step; eauto|]. split; [apply (uni_dst es (a, b)); exact Hin | exact Eb].
  - intros (w & HR & Hw & <-). clear Hw. induction HR as [|a b Ha IH Hin]; [constructor|].
    eapply NR_step; [exact IH|]. apply csr_signed. eauto.
Qed.

Lemma existsb_map_true es v : existsb (fun b => b) (map (fun e : Z * Z => Z.eqb (fst e) v) es) = true <-> src_of es v.
Proof.
  rewrite existsb_exists. split.
  - intros (b & Hin & ->). apply in_map_iff in Hin as ([x w] & E & Hin). apply Z.eqb_eq in E. cbn in E. subst. exists w. exact Hin.
  - intros (w & Hin). exists true. split; [|reflexivity]. apply in_map_iff. exists (v, w). cbn. rewrite Z.eqb_refl. auto.
Qed.

Lemma vertex_descendants_ok es v : exists m, vertex_descendants es v = Ok m /\ length m = length es /\
  forall i a b, nth_error es i = Some (a, b) -> exists x, nth_error m i = Some x /\
    (src_of es v -> (x = true <-> reach es v a)) /\ (~ src_of es v -> (x = true <-> b = v)).
Proof.
  unfold vertex_descendants. destruct (existsb (fun b => b) (map (fun e : Z * Z => Z.eqb (fst e) v) es)) eqn:E; cbn [negb].
  - apply existsb_map_true in E as HS. destruct HS as (w0 & Hw0).
    assert (Hne : es <> []) by (intros ->; exact Hw0).
    rewrite sparse_signed_ok by exact Hne. cbn [bind].
    assert (Hv : In v (uni es)) by (apply (uni_src es (v, w0)); exact Hw0).
    assert (HG : get (compress (map (fun e : Z * Z => Z.eqb (fst e) v) es) (map row_of (c_ent (signed_coo es)))) 0 = Ok (rank (uni es) v)).
    { cbn [signed_coo c_ent]. rewrite map_map.
      assert (C : forall l, (exists w, In (v, w) l) ->
        get (compress (map (fun e : Z * Z => Z.eqb (fst e) v) l) (map (fun x => row_of (relab es x, (0 <? snd x)%Z)) l)) 0 = Ok (rank (uni es) v)).
      { clear. induction l as [|[a b] l IH]; intros (w & Hw); [destruct Hw|]. cbn [map compress fst].
        destruct (Z.eqb_spec a v) as [->|Hn]; [reflexivity|]. apply IH. destruct Hw as [Hw|Hw]; [congruence | eauto]. }
      apply C. eauto. }
    rewrite HG. cbn [bind]. change (c_size (signed_coo es)) with (length (uni es)).
    destruct (bft_ok (length (uni es)) (csr_row (signed_coo es)) (rank (uni es) v)) as (idx & Hidx & HI).
    { intros i j Hj. apply csr_signed in Hj as (a & b & Hin & _ & <-). apply rank_lt. apply (uni_dst es (a, b)); exact Hin. }
    { apply rank_lt; exact Hv. }
    rewrite Hidx. cbn [bind c_ent signed_coo]. eexists. split; [reflexivity|]. split; [rewrite !map_length; reflexivity|].
    intros i a b Hi. rewrite !nth_error_map', Hi. cbn [option_map]. eexists. split; [reflexivity|]. split.
    + intros _. unfold row_of. cbn [fst relab]. rewrite orb_true_iff, existsb_nat, Nat.eqb_eq, HI.
      assert (Ha : In a (uni es)) by (apply (uni_src es (a, b)); eapply nth_error_In; exact Hi).
      rewrite (nreach_reach es v Hv). split.
      * intros [[(w & HR & Hw & Er) _]|Er]; [|apply rank_inj in Er; auto; subst; constructor].
        apply rank_inj in Er; auto. subst; exact HR.
      * intros HR. destruct (Nat.eq_dec (rank (uni es) a) (rank (uni es) v)) as [|Hn]; [right; assumption|]. left. split; [eauto | exact Hn].
    + intros HN. exfalso. apply HN. exists w0; exact Hw0.
  - eexists. split; [reflexivity|]. split; [apply map_length|]. intros i a b Hi. rewrite nth_error_map', Hi. cbn.
    eexists. split; [reflexivity|]. split.
    + intros HS. apply existsb_map_true in HS. congruence.
    + intros _. apply Z.eqb_eq.
Qed.

(** * find_vertex *)

Lemma pivot_get keys pdg k : length pdg = length keys ->
  zget k (pivot keys pdg) = if existsb (Z.eqb k) keys then Some (map snd (filter (fun p => Z.eqb (fst p) k) (combine keys pdg))) else None.
Proof.
  intros HL. unfold pivot. set (f := fun k => map snd (filter (fun p => Z.eqb (fst p) k) (combine keys pdg))).
  assert (G : forall u, zget k (map (fun k => (k, f k)) u) = if existsb (Z.eqb k) u then Some (f k) else None).
  { induction u as [|x u IH]; [reflexivity|]. cbn. destruct (Z.eqb_spec k x) as [->|Hn]; [reflexivity | exact IH]. }
  rewrite G. replace (existsb (Z.eqb k) (np_unique keys)) with (existsb (Z.eqb k) keys); [reflexivity|].
  apply eq_true_iff_eq. rewrite !existsb_In, unique_In. reflexivity.
Qed.

Lemma pivot_keys keys pdg : map fst (pivot keys pdg) = np_unique keys.
Proof. unfold pivot. rewrite map_map. cbn. apply map_id. Qed.

Lemma cells_some l : l <> [] -> cells (Some l) = map Some l.
Proof. destruct l; [congruence | reflexivity]. Qed.
Lemma cells_nonempty o : cells o <> [].
Proof. destruct o as [[|]|]; discriminate. Qed.

Lemma explode_In t k x y : In (k, x, y) (explode2 t) <-> exists a b, In (k, a, b) t /\ In x (cells a) /\ In y (cells b).
Proof.
  unfold explode2. rewrite in_flat_map. split.
  - intros ([[k' a] b] & Hin & H). cbn in H. apply in_flat_map in H as (x' & Hx & H). apply in_map_iff in H as (y' & E & Hy).
    injection E as -> -> ->. eauto.
  - intros (a & b & Hin & Hx & Hy). exists (k, a, b). split; [exact Hin|]. cbn. apply in_flat_map. exists x. split; [exact Hx|].
    apply in_map_iff. eauto.
Qed.

Lemma subset_spec want col : subset_of want col = true <-> forall z, In z want -> In (Some z) col.
Proof.
  unfold subset_of. rewrite forallb_forall. split; intros H z Hz; specialize (H z Hz).
  - apply existsb_exists in H as (o & Ho & E). destruct o as [y|]; [|discriminate]. apply Z.eqb_eq in E. subst; exact Ho.
  - apply existsb_exists. exists (Some z). split; [exact H | apply Z.eqb_refl].
Qed.

(** The particle [p] is on an edge that starts / ends at [v]. *)
Lemma group_In (keys pdg : list Z) k z :
  In z (map snd (filter (fun p => Z.eqb (fst p) k) (combine keys pdg))) <->
  exists i, nth_error keys i = Some k /\ nth_error pdg i = Some z.
Proof.
  rewrite in_map_iff. split.
  - intros ([k' z'] & <- & H). apply filter_In in H as [H E]. cbn in *. apply Z.eqb_eq in E. subst.
    apply In_nth_error in H as (i & Hi). exists i. revert pdg i Hi. induction keys as [|x keys IH]; intros [|y pdg] [|i] Hi; cbn in *; try discriminate.
    + injection Hi as -> ->. auto.
    + apply (IH pdg i Hi).
  - intros (i & H1 & H2). exists (k, z). split; [reflexivity|]. apply filter_In. cbn. rewrite Z.eqb_refl. split; [|reflexivity].
    revert pdg i H1 H2. induction keys as [|x keys IH]; intros [|y pdg] [|i] H1 H2; cbn in *; try discriminate.
    + left. congruence.
    + right. eapply IH; eauto.
Qed.

Lemma filter_key_cells (t : list (Z * option (list Z) * option (list Z))) k (Hk : NoDup (map (fun r => fst (fst r)) t)) a b : In (k, a, b) t ->
  (forall x, In x (map (fun r => snd (fst r)) (filter (fun r => Z.eqb (fst (fst r)) k) (explode2 t))) <-> In x (cells a)) /\
  (forall y, In y (map snd (filter (fun r => Z.eqb (fst (fst r)) k) (explode2 t))) <-> In y (cells b)).
Proof.
  intros Hin.
  assert (U : forall a' b', In (k, a', b') t -> a' = a /\ b' = b).
  { clear -Hk Hin. induction t as [|r t IH]; [intros ? ? []|]. cbn in Hk. inversion Hk as [|? ? N ND]; subst.
    intros a' b' H'. destruct Hin as [->|Hin], H' as [E|H'].
    - injection E; auto.
    - exfalso. apply N. apply in_map_iff. exists (k, a', b'). auto.
    - exfalso. subst r. apply N. apply in_map_iff. exists (k, a, b). auto.
    - apply IH; auto. }
  split; intros x; rewrite in_map_iff; split.
  - intros ([[k' x'] y'] & <- & H). apply filter_In in H as [H E]. cbn in *. apply Z.eqb_eq in E. subst k'.
    apply explode_In in H as (a' & b' & H & Hx & _). apply U in H as [-> ->]. exact Hx.
  - intros Hx. destruct (cells b) as [|y l] eqn:Eb; [destruct (cells_nonempty b Eb)|].
    exists (k, x, y). split; [reflexivity|]. apply filter_In. cbn. rewrite Z.eqb_refl. split; [|reflexivity].
    apply explode_In. exists a, b. rewrite Eb. repeat split; auto. left; reflexivity.
  - intros ([[k' x'] y'] & <- & H). apply filter_In in H as [H E]. cbn in *. apply Z.eqb_eq in E. subst k'.
    apply explode_In in H as (a' & b' & H & _ & Hy). apply U in H as [-> ->]. exact Hy.
  - intros Hy. destruct (cells a) as [|y l] eqn:Ea; [destruct (cells_nonempty a Ea)|].
    exists (k, y, x). split; [reflexivity|]. apply filter_In. cbn. rewrite Z.eqb_refl. split; [|reflexivity].
    apply explode_In. exists a, b. rewrite Ea. repeat split; auto. left; reflexivity.
Qed.

Lemma StronglySorted_filter {A} (R : A -> A -> Prop) f l : StronglySorted R l -> StronglySorted R (filter f l).
Proof.
  induction 1 as [|x l H IH HF]; cbn; [constructor|]. destruct (f x); [|exact IH]. constructor; [exact IH|].
  apply Forall_forall. intros y Hy. apply filter_In in Hy as [Hy _]. rewrite Forall_forall in HF. auto.
Qed.

Lemma pick_cells keys pdg k z : length pdg = length keys ->
  In (Some z) (cells (zget k (pivot keys pdg))) <-> exists i, nth_error keys i = Some k /\ nth_error pdg i = Some z.
Proof.
  intros HL. rewrite pivot_get by exact HL. rewrite <- group_In. destruct (existsb (Z.eqb k) keys) eqn:E.
  - apply existsb_In in E. rewrite cells_some.
    + rewrite in_map_iff. split; [intros (y & Ey & Hy); injection Ey as ->; exact Hy | intros H; eauto].
    + apply In_nth_error in E as (i & Hi). destruct (nth_error_in_range pdg i) as (y & Hy).
      { rewrite HL. apply nth_error_Some. congruence. }
      intros En. assert (F : In y []) by (rewrite <- En; apply group_In; eauto). exact F.
  - cbn. split; [intros [H|[]]; discriminate|]. intros H. apply group_In in H as (i & Hi & _).
    apply nth_error_In in Hi. apply existsb_In in Hi. congruence.
Qed.

Lemma find_vertex_ok es pdg pin pout : length pdg = length es -> (pin <> None \/ pout <> None) ->
  exists vs, find_vertex es pdg pin pout = Ok vs /\ StronglySorted Z.lt vs /\
    forall v, In v vs <-> vertex es v /\
      (forall s z, pin = Some s -> In z s -> exists i a, nth_error es i = Some (a, v) /\ nth_error pdg i = Some z) /\
      (forall s z, pout = Some s -> In z s -> exists i b, nth_error es i = Some (v, b) /\ nth_error pdg i = Some z).
Proof.
  intros HL HP. unfold find_vertex.
  set (want_in := match pin with Some s => s | None => [] end).
  set (want_out := match pout with Some s => s | None => [] end).
  set (J := outer_join (pivot (map snd es) pdg) (pivot (map fst es) pdg)). set (t := explode2 J).
  set (masks := map _ (np_unique (map (fun r => fst (fst r)) t))).
  exists (map (fun m => fst (fst m)) (filter (fun m => snd (fst m) && snd m) masks)). split.
  { rewrite HL, Nat.eqb_refl. cbn [negb]. destruct pin, pout; try reflexivity. destruct HP; congruence. }
  assert (Li : length pdg = length (map snd es)) by (rewrite map_length; exact HL).
  assert (Lo : length pdg = length (map fst es)) by (rewrite map_length; exact HL).
  assert (JK : map (fun r => fst (fst r)) J = rev (np_unique (np_unique (map snd es) ++ np_unique (map fst es)))).
  { unfold J, outer_join. rewrite map_map. cbn. rewrite map_id, !pivot_keys. reflexivity. }
  assert (JN : NoDup (map (fun r => fst (fst r)) J)) by (rewrite JK; apply NoDup_rev, sorted_NoDup, unique_sorted).
  assert (JI : forall k, In k (map (fun r => fst (fst r)) J) <-> vertex es k).
  { intros k. rewrite JK, <- in_rev, unique_In, in_app_iff, !unique_In. unfold vertex, src_of, dst_of. rewrite !in_map_iff. split.
    - intros [([a b] & <- & H)|([a b] & <- & H)]; cbn; eauto.
    - intros [(w & H)|(w & H)]; [right; exists (k, w) | left; exists (w, k)]; auto. }
  assert (JV : forall k a b, In (k, a, b) J -> a = zget k (pivot (map snd es) pdg) /\ b = zget k (pivot (map fst es) pdg)).
  { intros k a b H. unfold J, outer_join in H. apply in_map_iff in H as (k' & E & _). injection E as <- <- <-. auto. }
  assert (TK : forall k, In k (np_unique (map (fun r => fst (fst r)) t)) <-> vertex es k).
  { intros k. rewrite unique_In, <- JI, !in_map_iff. split.
    - intros ([[k' x] y] & <- & H). apply explode_In in H as (a & b & H & _). exists (k', a, b). auto.
    - intros ([[k' a] b] & <- & H). cbn. destruct (cells a) as [|x la] eqn:Ea; [destruct (cells_nonempty a Ea)|].
      destruct (cells b) as [|y lb] eqn:Eb; [destruct (cells_nonempty b Eb)|]. exists (k', x, y). split; [reflexivity|].
      apply explode_In. exists a, b. rewrite Ea, Eb. repeat split; auto; left; reflexivity. }
  split.
  - unfold masks. clear. assert (S : StronglySorted Z.lt (np_unique (map (fun r : Z * option Z * option Z => fst (fst r)) t))) by apply unique_sorted.
    revert S. generalize (np_unique (map (fun r : Z * option Z * option Z => fst (fst r)) t)) as u. intros u S.
    induction S as [|x u S IH HF]; [constructor|]. cbn [map filter].
    match goal with |- context [if ?c then _ else _] => destruct c end; [|exact IH]. cbn [map fst]. constructor; [exact IH|].
    apply Forall_forall. intros y Hy. apply in_map_iff in Hy as (m & <- & Hm). apply filter_In in Hm as [Hm _].
    apply in_map_iff in Hm as (k & <- & Hk). cbn. rewrite Forall_forall in HF. auto.
  - intros v. rewrite in_map_iff.
    assert (Q : vertex es v ->
      (subset_of want_in (map (fun r => snd (fst r)) (filter (fun r => Z.eqb (fst (fst r)) v) t)) = true <->
        forall s z, pin = Some s -> In z s -> exists i a, nth_error es i = Some (a, v) /\ nth_error pdg i = Some z) /\
      (subset_of want_out (map snd (filter (fun r => Z.eqb (fst (fst r)) v) t)) = true <->
        forall s z, pout = Some s -> In z s -> exists i b, nth_error es i = Some (v, b) /\ nth_error pdg i = Some z)).
    { intros Hv. apply JI in Hv. apply in_map_iff in Hv as ([[k a] b] & E & Hin). cbn in E. subst k.
      destruct (filter_key_cells J v JN a b Hin) as [Fa Fb]. fold t in Fa, Fb.
      apply JV in Hin as [-> ->]. rewrite !subset_spec. split.
      - split.
        + intros H s z Es Hz. assert (W : In z want_in) by (unfold want_in; rewrite Es; exact Hz).
          specialize (H z W). rewrite Fa in H. apply pick_cells in H as (i & H1 & H2); [|exact Li].
          rewrite nth_error_map' in H1. destruct (nth_error es i) as [[a b]|] eqn:Ei; [|discriminate]. cbn in H1. injection H1 as ->. eauto.
        + intros H z Hz. rewrite Fa. apply pick_cells; [exact Li|]. unfold want_in in Hz. destruct pin as [s|]; [|destruct Hz].
          destruct (H s z eq_refl Hz) as (i & a & H1 & H2). exists i. rewrite nth_error_map', H1. auto.
      - split.
        + intros H s z Es Hz. assert (W : In z want_out) by (unfold want_out; rewrite Es; exact Hz).
          specialize (H z W). rewrite Fb in H. apply pick_cells in H as (i & H1 & H2); [|exact Lo].
          rewrite nth_error_map' in H1. destruct (nth_error es i) as [[a b]|] eqn:Ei; [|discriminate]. cbn in H1. injection H1 as ->. eauto.
        + intros H z Hz. rewrite Fb. apply pick_cells; [exact Lo|]. unfold want_out in Hz. destruct pout as [s|]; [|destruct Hz].
          destruct (H s z eq_refl Hz) as (i & a & H1 & H2). exists i. rewrite nth_error_map', H1. auto. }
    split.
    + intros (m & <- & Hm). apply filter_In in Hm as [Hm Hb]. unfold masks in Hm. apply in_map_iff in Hm as (k & <- & Hk).
      cbn in *. apply TK in Hk. apply andb_true_iff in Hb as [B1 B2]. destruct (Q Hk) as [Q1 Q2].
      split; [exact Hk|]. split; [apply Q1; exact B1 | apply Q2; exact B2].
    + intros (Hv & H1 & H2). destruct (Q Hv) as [Q1 Q2].
      eexists. split; [|apply filter_In; split; [unfold masks; apply in_map_iff; exists v; split; [reflexivity | apply TK; exact Hv]|]].
      * reflexivity.
      * cbn. apply andb_true_iff. split; [apply Q1; exact H1 | apply Q2; exact H2].
Qed.
