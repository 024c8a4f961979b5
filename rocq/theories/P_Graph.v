(** From momenta to a graph: matrix.delta_R_aff, matrix.cut_adj / knn_adj, AdjacencyList.from_matrix (C229, C230). *)
From Coq Require Import Reals Ratan List Bool Lia Lra Sorting ZArith.
From Verif Require Import Prelude Keys SpecReal RealBase Kinem KinemProofs P_Kinem SpecDist Par DeltaR DeltaRProofs P_DeltaR SpecMatrix Matrix P_Matrix SpecAdj SpecArray Arrays ArraysProofs Composite Adjacency AdjacencyProofs P_Equiv P_Order P_Part4 P_Equiv4.
Import ListNotations.
Open Scope nat_scope.
Open Scope R_scope.

(** * Vocabulary *)
(** One edge before another: row by row, then by column. *)
Definition before (u v : Z * Z) : Prop := (fst u < fst v \/ (fst u = fst v /\ snd u < snd v))%Z.
(** [d] is the distance of the particles [i] and [j] of the event in the (pseudorapidity, azimuth) plane. *)
Definition separated (l : list mom) (i j : nat) (d : R) : Prop :=
  exists p q g, nth_error l i = Some p /\ nth_error l j = Some q /\ azimuth_gap p q g /\
    d = sqrt ((pseudo_rap p - pseudo_rap q) * (pseudo_rap p - pseudo_rap q) + g * g).
(** They are different records less than [r] apart. *)
Definition neighbours (l : list mom) (r : R) (i j : nat) : Prop := i <> j /\ exists d, separated l i j d /\ d < r.
(** The steps a user writes: the graph of the particles closer than [r]. *)
Definition radius_graph (l : list mom) (r : R) (a : adjl bool) : Prop :=
  exists M B, delta_R_aff l M /\ cut_adj M (Fin r) "max" FFalse FFalse = Ok (Bools B) /\ from_matrix negb false B false false = Ok a.

(** * The edges of a boolean matrix *)
Lemma nz_row_sorted {F} (z : F -> bool) (i : nat) : forall (row : list F) c,
  Sorted.StronglySorted before (map zpair (flat_map (fun jx => if z (snd jx) then [] else [(i, fst jx, snd jx)]) (enum_from c row))) /\
  Forall (fun u => fst u = Z.of_nat i /\ (Z.of_nat c <= snd u)%Z) (map zpair (flat_map (fun jx => if z (snd jx) then [] else [(i, fst jx, snd jx)]) (enum_from c row))).
Proof.
  induction row as [|x row IH]; intros c; cbn [enum_from flat_map map]; [split; constructor|]. destruct (IH (S c)) as (I1 & I2). cbn [fst snd].
  assert (W : Forall (fun u => fst u = Z.of_nat i /\ (Z.of_nat c <= snd u)%Z) (map zpair (flat_map (fun jx => if z (snd jx) then [] else [(i, fst jx, snd jx)]) (enum_from (S c) row)))).
  { eapply Forall_impl; [|exact I2]. cbn. intros u (A & B). split; [exact A | lia]. }
  destruct (z x); cbn [app map]; [split; assumption|]. split.
  - constructor; [exact I1|]. eapply Forall_impl; [|exact I2]. cbn. intros u (A & B). right. unfold zpair, row_of, col_of. cbn [fst snd]. rewrite A. lia.
  - constructor; [unfold zpair, row_of, col_of; cbn [fst snd]; lia | exact W].
Qed.
Lemma nz_sorted {F} (z : F -> bool) : forall (m : list (list F)) c,
  let es := map zpair (flat_map (fun ir => flat_map (fun jx => if z (snd jx) then [] else [(fst ir, fst jx, snd jx)]) (enumerate (snd ir))) (enum_from c m)) in
  Sorted.StronglySorted before es /\ Forall (fun u => (Z.of_nat c <= fst u)%Z) es.
Proof.
  induction m as [|row m IH]; intros c; cbn [enum_from flat_map map]; [split; constructor|]. destruct (IH (S c)) as (I1 & I2). cbv zeta in *. cbn [fst snd]. rewrite map_app.
  destruct (nz_row_sorted z c row 0) as (R1 & R2). unfold enumerate at 1 3. set (a := map zpair _) in *. set (b := map zpair (flat_map _ (enum_from (S c) m))) in *. clearbody a b. split.
  - clear - R1 R2 I1 I2. induction R1 as [|u a0 H1 IHa H2]; [exact I1|]. cbn [app]. inversion R2 as [|? ? (E1 & E2) R2']; subst. constructor; [apply IHa; exact R2'|].
    apply Forall_app. split; [exact H2|]. eapply Forall_impl; [|exact I2]. cbn. intros v V. left. lia.
  - apply Forall_app. split; [eapply Forall_impl; [|exact R2]; cbn; intros u (A & _); lia | eapply Forall_impl; [|exact I2]; cbn; intros; lia].
Qed.

(** A boolean matrix becomes the list of its True entries, row by row, each once. *)
Lemma bool_graph n (B : list (list bool)) : shape n n B -> (Z.of_nat n <= 2 ^ 31)%Z ->
  exists a, from_matrix negb false B false false = Ok a /\ a_weights a = [] /\ Sorted.StronglySorted before (edges_of (a_data a)) /\
    forall u v, In (u, v) (edges_of (a_data a)) <-> exists i j, u = Z.of_nat i /\ v = Z.of_nat j /\ at2 B i j = Some true.
Proof.
  intros S Hn. assert (HZ : forall x, negb x = true <-> x = false) by (intros [|]; cbn; split; congruence).
  eexists. split; [apply (from_matrix_plain false negb HZ n B false); [exact S | exact Hn]|]. cbn [a_weights a_data]. split; [reflexivity|]. rewrite edges_of_rows. split; [apply (nz_sorted negb B 0)|].
  intros u v. rewrite in_map_iff. split.
  - intros (((i, j), x) & E & I). apply (nonzeros_In negb false HZ) in I as (I & N). unfold zpair, row_of, col_of in E. cbn [fst snd] in E. injection E as <- <-. exists i, j. do 2 (split; [reflexivity|]). destruct x; [exact I | congruence].
  - intros (i & j & -> & -> & I). exists (i, j, true). split; [reflexivity|]. apply (nonzeros_In negb false HZ). split; [exact I | discriminate].
Qed.

Lemma before_NoDup l : Sorted.StronglySorted before l -> NoDup l.
Proof. induction 1 as [|u l H IH HF]; constructor; [|exact IH]. intros I. rewrite Forall_forall in HF. specialize (HF _ I). unfold before in HF. lia. Qed.
Lemma before_ext : forall a b, Sorted.StronglySorted before a -> Sorted.StronglySorted before b -> (forall u, In u a <-> In u b) -> a = b.
Proof.
  induction a as [|u a IH]; intros b A B H.
  - destruct b as [|v b]; [reflexivity|]. destruct (proj2 (H v) (or_introl eq_refl)).
  - destruct b as [|v b]; [destruct (proj1 (H u) (or_introl eq_refl))|]. inversion A as [|? ? A1 A2]; subst. inversion B as [|? ? B1 B2]; subst. rewrite Forall_forall in A2, B2.
    assert (u = v) as <-.
    { destruct (proj1 (H u) (or_introl eq_refl)) as [E|I]; [congruence|]. destruct (proj2 (H v) (or_introl eq_refl)) as [E|J]; [congruence|]. specialize (B2 _ I). specialize (A2 _ J). unfold before in *. lia. }
    f_equal. apply IH; [exact A1 | exact B1|]. intros w. split; intros I.
    + destruct (proj1 (H w) (or_intror I)) as [<-|J]; [|exact J]. specialize (A2 _ I). unfold before in A2. lia.
    + destruct (proj2 (H w) (or_intror I)) as [<-|J]; [|exact J]. specialize (B2 _ I). unfold before in B2. lia.
Qed.

(** * C229 *)
Lemma aff_shape l M : delta_R_aff l M -> shape (length l) (length l) M.
Proof. intros H. unfold delta_R_aff in H. apply call_result in H; [|reflexivity]. subst M. unfold delta_R. split; [apply map_length|]. apply Forall_forall. intros r I. apply in_map_iff in I as (p & <- & _). apply map_length. Qed.
Lemma aff_entry l M i j p q : delta_R_aff l M -> (forall p, In p l -> 0 < pt_sq p) -> nth_error l i = Some p -> nth_error l j = Some q ->
  exists g, azimuth_gap p q g /\ at2 M i j = Some (Fin (sqrt ((pseudo_rap p - pseudo_rap q) * (pseudo_rap p - pseudo_rap q) + g * g))).
Proof.
  intros H PT Hi Hj. destruct (C64_distance true true l l M i j p q (fun _ => eq_refl) H Hi Hj (PT _ (nth_error_In _ _ Hi)) (PT _ (nth_error_In _ _ Hj)) ltac:(discriminate)) as (g & G & E).
  exists g. split; [exact G | exact E].
Qed.
Lemma gap_unique p q g g' : 0 < pt_sq p -> 0 < pt_sq q -> azimuth_gap p q g -> azimuth_gap p q g' -> g = g'.
Proof.
  intros P Q (B & S) (B' & S'). specialize (S _ _ (atan2_spec (py p) (px p)) (atan2_spec (py q) (px q))). specialize (S' _ _ (atan2_spec (py p) (px p)) (atan2_spec (py q) (px q))).
  destruct S as (k & E). destruct S' as (k' & E'). set (d := RealBase.atan2 (py p) (px p) - RealBase.atan2 (py q) (px q)) in *. pose proof PI_RGT_0.
  assert (D : g - g' = 2 * PI * IZR (k - k')) by (rewrite minus_IZR; lra). assert (k - k' = 0)%Z as Z.
  { destruct (Z.eq_dec (k - k') 0) as [|N]; [assumption|]. exfalso. destruct (Z_lt_le_dec (k - k') 0) as [L|L].
    - assert (IZR (k - k') <= -1) by (apply IZR_le; lia). assert (2 * PI * IZR (k - k') <= 2 * PI * -1) by (apply Rmult_le_compat_l; lra). lra.
    - assert (1 <= IZR (k - k')) by (apply IZR_le; lia). assert (2 * PI * 1 <= 2 * PI * IZR (k - k')) by (apply Rmult_le_compat_l; lra). lra. }
  rewrite Z in D. cbn in D. lra.
Qed.

(** The three calls succeed; the graph's edges are listed row by row, each once; there is one from i to j exactly when the particles are
    neighbours; so every edge comes with its reverse. *)
Theorem C229_edges : forall l r, (forall p, In p l -> 0 < pt_sq p) -> (Z.of_nat (length l) <= 2 ^ 31)%Z ->
  (exists a, radius_graph l r a) /\
  forall a, radius_graph l r a -> a_weights a = [] /\ Sorted.StronglySorted before (edges_of (a_data a)) /\ NoDup (edges_of (a_data a)) /\
    (forall u v, In (u, v) (edges_of (a_data a)) <-> exists i j, u = Z.of_nat i /\ v = Z.of_nat j /\ neighbours l r i j) /\
    (forall u v, In (u, v) (edges_of (a_data a)) <-> In (v, u) (edges_of (a_data a))).
Proof.
  intros l r PT Hn.
  assert (K : forall M B, delta_R_aff l M -> cut_adj M (Fin r) "max" FFalse FFalse = Ok (Bools B) ->
    shape (length l) (length l) B /\ forall i j, at2 B i j = Some true <-> neighbours l r i j).
  { intros M B HM HB. pose proof (aff_shape l M HM) as SM. destruct (C81_unweighted (length l) M (Fin r) "max"%string FFalse SM (or_introl eq_refl)) as (B' & EB & SB & OFF & DI).
    assert (B' = B) as -> by congruence. split; [exact SB|]. intros i j. split.
    - intros E. assert (IJ : (i < length l)%nat /\ (j < length l)%nat).
      { unfold at2 in E. destruct SB as (L & F). destruct (nth_error B i) as [row|] eqn:Er; [|discriminate]. split; [rewrite <- L; apply nth_error_Some; congruence|].
        rewrite Forall_forall in F. rewrite <- (F _ (nth_error_In _ _ Er)). apply nth_error_Some. congruence. }
      destruct IJ as (I & J). destruct (Nat.eq_dec i j) as [->|N]; [rewrite (DI j J) in E; discriminate|]. split; [exact N|].
      destruct (nth_error l i) as [p|] eqn:Hp; [|apply nth_error_None in Hp; lia]. destruct (nth_error l j) as [q|] eqn:Hq; [|apply nth_error_None in Hq; lia].
      destruct (aff_entry l M i j p q HM PT Hp Hq) as (g & G & A). eexists. split; [exists p, q, g; do 2 (split; [assumption|]); split; [exact G | reflexivity]|].
      destruct (OFF i j _ N A) as (b & Eb & Hb). rewrite E in Eb. injection Eb as <-. apply (proj1 Hb eq_refl).
    - intros (N & d & (p & q & g & Hp & Hq & G & ->) & LT). destruct (aff_entry l M i j p q HM PT Hp Hq) as (g' & G' & A).
      assert (g' = g) as -> by (eapply gap_unique; [apply PT; eapply nth_error_In, Hp | apply PT; eapply nth_error_In, Hq | exact G' | exact G]).
      destruct (OFF i j _ N A) as (b & Eb & Hb). rewrite Eb. f_equal. apply Hb. exact LT. }
  split.
  - destruct (call_exists true true l l) as (M & HM). pose proof (aff_shape l M HM) as SM. destruct (C81_unweighted (length l) M (Fin r) "max"%string FFalse SM (or_introl eq_refl)) as (B & EB & SB & _).
    destruct (bool_graph _ B SB Hn) as (a & Ea & _). exists a, M, B. split; [exact HM|]. split; assumption.
  - intros a (M & B & HM & EB & Ea). destruct (K M B HM EB) as (SB & HB). destruct (bool_graph _ B SB Hn) as (a' & Ea' & W & SS & IN). assert (a' = a) as -> by congruence.
    assert (C : forall u v, In (u, v) (edges_of (a_data a)) <-> exists i j, u = Z.of_nat i /\ v = Z.of_nat j /\ neighbours l r i j).
    { intros u v. rewrite IN. split; intros (i & j & E1 & E2 & H); exists i, j; (split; [exact E1|]); (split; [exact E2|]); apply HB; exact H. }
    split; [exact W|]. split; [exact SS|]. split; [apply before_NoDup, SS|]. split; [exact C|].
    assert (HALF : forall u v, In (u, v) (edges_of (a_data a)) -> In (v, u) (edges_of (a_data a))).
    { intros u v I. apply IN in I as (i & j & -> & -> & I). apply IN. exists j, i. do 2 (split; [reflexivity|]). apply HB. apply HB in I as (N & d & (p & q & g & Hp & Hq & G & ->) & LT).
      split; [congruence|]. destruct (C65_delta_R_aff l M HM) as (_ & SYM & _). destruct (aff_entry l M i j p q HM PT Hp Hq) as (g1 & G1 & A1). destruct (aff_entry l M j i q p HM PT Hq Hp) as (g2 & G2 & A2).
      eexists. split; [exists q, p, g2; do 2 (split; [assumption|]); split; [exact G2 | reflexivity]|]. rewrite SYM in A2. rewrite A1 in A2. injection A2 as A2. rewrite <- A2.
      replace g1 with g; [exact LT|]. eapply gap_unique; [apply PT; eapply nth_error_In, Hp | apply PT; eapply nth_error_In, Hq | exact G | exact G1]. }
    intros u v. split; apply HALF.
Qed.

(** The graph of a turned event is the same graph, and so is the graph of an event of massless particles boosted along the beam. *)
Theorem C229_rotation : forall l l' t r a a', (forall p, In p l -> 0 < pt_sq p) -> shift_phi (Scalar t) l = Ok l' -> radius_graph l r a -> radius_graph l' r a' -> a' = a.
Proof.
  intros l l' t r a a' PT HS (M & B & HM & EB & Ea) (M' & B' & HM' & EB' & Ea'). assert (M' = M) as -> by (eapply (C64_rotation true true t l l l' l'); eauto). congruence.
Qed.
Theorem C229_boost : forall l l' d r a a', (forall p, In p l -> massless p) -> shift_rapidity (Scalar d) l = Ok l' -> radius_graph l r a -> radius_graph l' r a' -> a' = a.
Proof.
  intros l l' d r a a' ML HS (M & B & HM & EB & Ea) (M' & B' & HM' & EB' & Ea').
  assert (M' = M) as ->; [|congruence]. unfold delta_R_aff in HM, HM'. apply call_result in HM; [|reflexivity]. apply call_result in HM'; [|reflexivity]. subst M M'. apply shift_rap_map in HS. subst l'.
  unfold delta_R. rewrite map_map. apply map_ext_in. intros p Hp. rewrite map_map. apply map_ext_in. intros q Hq.
  destruct (ML p Hp) as (P & MP). destruct (ML q Hq) as (Q & MQ). unfold delta_entry. cbn [rap_of]. rewrite (massless_boost d p P MP), (massless_boost d q Q MQ), (eta_fin p P), (eta_fin q Q). cbn [esub eadd eopp].
  replace (delta_phi (boost d p) (boost d q)) with (delta_phi p q) by reflexivity. cbn. do 3 f_equal. f_equal; ring.
Qed.

(** * C230 *)
(** No two particles of the event have the same direction. *)
Definition distinct_directions (l : list mom) : Prop := forall i j, i <> j -> ~ separated l i j 0.
(** The steps for the graph of the [k] nearest neighbours; the partial sort of knn_adj is any admissible one. *)
Definition knn_graph (l : list mom) (k : nat) (a : adjl bool) : Prop :=
  exists M G, delta_R_aff l M /\ knn_adj M (Z.of_nat k) FFalse FFalse FTrue DNone (Ok (Bools G)) /\ from_matrix negb false G false false = Ok a.
(** [near] are the [k] particles nearest to [j]. *)
Definition nearest_to (l : list mom) (k j : nat) (near : list nat) : Prop :=
  NoDup near /\ length near = k /\ (forall i, In i near -> (i < length l)%nat /\ i <> j) /\
  forall i i' d d', In i near -> ~ In i' near -> i' <> j -> separated l i j d -> separated l i' j d' -> d <= d'.

Lemma separated_unique l i j d d' : (forall p, In p l -> 0 < pt_sq p) -> separated l i j d -> separated l i j d' -> d = d'.
Proof.
  intros PT (p & q & g & Hp & Hq & G & ->) (p' & q' & g' & Hp' & Hq' & G' & ->). rewrite Hp in Hp'. rewrite Hq in Hq'. injection Hp' as <-. injection Hq' as <-.
  rewrite (gap_unique p q g g'); [reflexivity | apply PT; eapply nth_error_In, Hp | apply PT; eapply nth_error_In, Hq | exact G | exact G'].
Qed.
Lemma aff_separated l M i j : delta_R_aff l M -> (forall p, In p l -> 0 < pt_sq p) -> (i < length l)%nat -> (j < length l)%nat ->
  exists d, separated l i j d /\ 0 <= d /\ at2 M i j = Some (Fin d).
Proof.
  intros HM PT Hi Hj. destruct (nth_error l i) as [p|] eqn:Hp; [|apply nth_error_None in Hp; lia]. destruct (nth_error l j) as [q|] eqn:Hq; [|apply nth_error_None in Hq; lia].
  destruct (aff_entry l M i j p q HM PT Hp Hq) as (g & G & A). eexists. split; [exists p, q, g; do 2 (split; [assumption|]); split; [exact G | reflexivity]|]. split; [apply sqrt_pos | exact A].
Qed.

(** The three calls succeed when there are more than k + 1 particles; each particle is the target of exactly [k] edges, from its [k] nearest
    others; nothing is linked to itself. *)
Theorem C230_knn_graph : forall l k, (forall p, In p l -> 0 < pt_sq p) -> distinct_directions l -> (Z.of_nat (length l) <= 2 ^ 31)%Z -> (S k < length l)%nat ->
  (exists a, knn_graph l k a) /\
  forall a, knn_graph l k a -> Sorted.StronglySorted before (edges_of (a_data a)) /\
    forall j, (j < length l)%nat -> exists near, nearest_to l k j near /\
      Permutation.Permutation (filter (fun e => Z.eqb (snd e) (Z.of_nat j)) (edges_of (a_data a))) (map (fun i => (Z.of_nat i, Z.of_nat j)) near).
Proof.
  intros l k PT DD Hn Hk.
  assert (SN : forall M, delta_R_aff l M -> self_nearest (length l) M).
  { intros M HM i j Hi Hj N. destruct (aff_separated l M i j HM PT Hi Hj) as (d & SD & D0 & A). destruct (C65_delta_R_aff l M HM) as (_ & _ & DG). specialize (DG j Hj).
    unfold P_Matrix.entry. rewrite A, DG. cbn [sort_le]. intros LE. assert (d = 0) as -> by lra. exact (DD i j N SD). }
  split.
  - destruct (call_exists true true l l) as (M & HM). pose proof (aff_shape l M HM) as SM. destruct (C83_runs M (Z.of_nat k) FFalse FFalse FTrue DNone) as (out & HO).
    destruct (C83_others (length l) M k FTrue DNone out SM (SN M HM) Hk HO) as (nb & G & _ & -> & SG & _). destruct (bool_graph _ G SG Hn) as (a & Ea & _).
    exists a, M, G. split; [exact HM|]. split; assumption.
  - intros a (M & G' & HM & HK & Ea). pose proof (aff_shape l M HM) as SM. destruct (C83_others (length l) M k FTrue DNone _ SM (SN M HM) Hk HK) as (nb & G & NB & EG & SG & HG). injection EG as <-.
    destruct (bool_graph _ G' SG Hn) as (a' & Ea' & _ & SS & IN). assert (a' = a) as -> by congruence. split; [exact SS|]. intros j Hj. exists (nb j). destruct (NB j Hj) as (ND & LN & RG & MIN).
    assert (NT : nearest_to l k j (nb j)).
    { split; [exact ND|]. split; [exact LN|]. split; [exact RG|]. intros i i' d d' Hi Hi' Ni SD SD'. destruct (RG i Hi) as (Li & _).
      assert (Li' : (i' < length l)%nat) by (destruct SD' as (p & q & g & Hp & _); apply nth_error_Some; congruence).
      specialize (MIN i i' Hi Li' Ni Hi'). destruct (aff_separated l M i j HM PT Li Hj) as (e & SE & _ & A). destruct (aff_separated l M i' j HM PT Li' Hj) as (e' & SE' & _ & A').
      unfold P_Matrix.entry in MIN. rewrite A, A' in MIN. cbn [sort_le] in MIN. rewrite (separated_unique l i j d e PT SD SE), (separated_unique l i' j d' e' PT SD' SE'). exact MIN. }
    split; [exact NT|]. apply Permutation.NoDup_Permutation.
    + apply NoDup_filter, before_NoDup, SS.
    + apply FinFun.Injective_map_NoDup; [|exact ND]. intros x y E. injection E as E. apply Nat2Z.inj in E. exact E.
    + intros (u, v). rewrite filter_In, IN, in_map_iff. cbn [snd]. split.
      * intros ((i & j' & -> & -> & T) & E). apply Z.eqb_eq, Nat2Z.inj in E. subst j'. exists i. split; [reflexivity|].
        assert (Li : (i < length l)%nat). { unfold at2 in T. destruct SG as (L & _). rewrite <- L. apply nth_error_Some. intros N. rewrite N in T. discriminate. }
        destruct (HG i j Li Hj) as (b & Eb & Hb). cbn [link] in Eb. rewrite T in Eb. injection Eb as <-. apply Hb. reflexivity.
      * intros (i & E & Hi). injection E as <- <-. split; [|apply Z.eqb_refl]. exists i, j. do 2 (split; [reflexivity|]). destruct (RG i Hi) as (Li & _).
        destruct (HG i j Li Hj) as (b & Eb & Hb). cbn [link] in Eb. rewrite Eb. f_equal. apply Hb, Hi.
Qed.

(** * Cases: the momenta (1,0,0), (0,1,0), (-1,0,0): right angles; distances pi/2, pi/2 and pi. *)
Definition three : list mom := [Mom 1 0 0 1; Mom 0 1 0 1; Mom (-1) 0 0 1].
Lemma atan2_1 : RealBase.atan2 0 1 = 0. Proof. apply atan2_unique; [lra|]. pose proof PI_RGT_0. split; [lra|]. replace (1 * 1 + 0 * 0) with 1 by ring. rewrite sqrt_1, cos_0, sin_0. lra. Qed.
Lemma atan2_2 : RealBase.atan2 1 0 = PI / 2. Proof. apply atan2_unique; [lra|]. pose proof PI_RGT_0. split; [lra|]. replace (0 * 0 + 1 * 1) with 1 by ring. rewrite sqrt_1, cos_PI2, sin_PI2. lra. Qed.
Lemma atan2_3 : RealBase.atan2 0 (-1) = PI. Proof. apply atan2_unique; [lra|]. pose proof PI_RGT_0. split; [lra|]. replace (-1 * -1 + 0 * 0) with 1 by ring. rewrite sqrt_1, cos_PI, sin_PI. lra. Qed.
Lemma flat_rap x y : x * x + y * y = 1 -> pseudo_rap (Mom x y 0 1) = 0.
Proof.
  intros E. unfold pseudo_rap, p_sq. cbn [px py pz]. replace (x * x + y * y + 0 * 0) with 1 by lra. rewrite sqrt_1. replace ((1 + 0) / (1 - 0)) with 1 by field. rewrite ln_1. ring.
Qed.
Lemma three_sep i j p q : nth_error three i = Some p -> nth_error three j = Some q -> forall g, -PI < g <= PI -> g = RealBase.atan2 (py p) (px p) - RealBase.atan2 (py q) (px q) ->
  separated three i j (Rabs g).
Proof.
  intros Hp Hq g B E. exists p, q, g. do 2 (split; [assumption|]).
  assert (U : forall w k, nth_error three k = Some w -> 0 < px w * px w + py w * py w /\ pseudo_rap w = 0).
  { intros w k Hw. destruct k as [|[|[|k]]]; [| | |destruct k; discriminate Hw]; injection Hw as <-; cbn [px py]; (split; [lra | apply flat_rap; lra]). }
  destruct (U p i Hp) as (P & RP). destruct (U q j Hq) as (Q & RQ). split.
  - split; [exact B|]. intros a b Ha Hb. rewrite <- (atan2_unique _ _ _ P Ha), <- (atan2_unique _ _ _ Q Hb). exists 0%Z. rewrite Rmult_0_r. lra.
  - rewrite RP, RQ. replace ((0 - 0) * (0 - 0) + g * g) with (Rsqr g) by (unfold Rsqr; ring). symmetry. apply sqrt_Rsqr_abs.
Qed.
Lemma three_all : separated three 0 1 (PI / 2) /\ separated three 1 0 (PI / 2) /\ separated three 2 1 (PI / 2) /\ separated three 1 2 (PI / 2) /\ separated three 2 0 PI /\ separated three 0 2 PI.
Proof.
  pose proof PI_4. assert (P3 : 3 < PI) by (pose proof PI2_3_2; lra).
  split; [replace (PI / 2) with (Rabs (- (PI / 2))) by (rewrite Rabs_Ropp, Rabs_pos_eq; lra); eapply three_sep; [reflexivity | reflexivity | lra|]; cbn [px py]; rewrite atan2_1, atan2_2; lra|].
  split; [replace (PI / 2) with (Rabs (PI / 2)) by (rewrite Rabs_pos_eq; lra); eapply three_sep; [reflexivity | reflexivity | lra|]; cbn [px py]; rewrite atan2_1, atan2_2; lra|].
  split; [replace (PI / 2) with (Rabs (PI / 2)) by (rewrite Rabs_pos_eq; lra); eapply three_sep; [reflexivity | reflexivity | lra|]; cbn [px py]; rewrite atan2_3, atan2_2; lra|].
  split; [replace (PI / 2) with (Rabs (- (PI / 2))) by (rewrite Rabs_Ropp, Rabs_pos_eq; lra); eapply three_sep; [reflexivity | reflexivity | lra|]; cbn [px py]; rewrite atan2_3, atan2_2; lra|].
  split; [replace PI with (Rabs PI) at 1 by (rewrite Rabs_pos_eq; lra); eapply three_sep; [reflexivity | reflexivity | lra|]; cbn [px py]; rewrite atan2_3, atan2_1; lra|].
  assert (exists g, azimuth_gap (Mom 1 0 0 1) (Mom (-1) 0 0 1) g /\ Rabs g = PI) as (g & G & A).
  { exists PI. split; [|apply Rabs_pos_eq; lra]. split; [lra|]. intros a b Ha Hb. rewrite <- (atan2_unique 1 0 a ltac:(lra) Ha), <- (atan2_unique (-1) 0 b ltac:(lra) Hb). rewrite atan2_1, atan2_3. exists 1%Z. cbn. lra. }
  exists (Mom 1 0 0 1), (Mom (-1) 0 0 1), g. do 2 (split; [reflexivity|]). split; [exact G|]. rewrite !flat_rap by lra. replace ((0 - 0) * (0 - 0) + g * g) with (Rsqr g) by (unfold Rsqr; ring). rewrite sqrt_Rsqr_abs. congruence.
Qed.
Lemma three_pt : forall p, In p three -> 0 < pt_sq p.
Proof. intros p [<-|[<-|[<-|[]]]]; unfold pt_sq; cbn [px py]; lra. Qed.
(** The distance of two different particles of the case is pi/2 or pi. *)
Lemma three_dist i j d : i <> j -> separated three i j d -> d = PI / 2 \/ d = PI.
Proof.
  intros N SD. destruct three_all as (S01 & S10 & S21 & S12 & S20 & S02).
  assert (B : (i < 3)%nat /\ (j < 3)%nat). { destruct SD as (p & q & g & Hp & Hq & _). split; [change 3%nat with (length three) | change 3%nat with (length three)]; apply nth_error_Some; congruence. }
  pose proof three_pt as PT. destruct i as [|[|[|i]]]; destruct j as [|[|[|j]]]; try lia;
  [pose proof (separated_unique _ _ _ _ _ PT SD S01) | pose proof (separated_unique _ _ _ _ _ PT SD S02) | pose proof (separated_unique _ _ _ _ _ PT SD S10)
  |pose proof (separated_unique _ _ _ _ _ PT SD S12) | pose proof (separated_unique _ _ _ _ _ PT SD S20) | pose proof (separated_unique _ _ _ _ _ PT SD S21)]; auto.
Qed.
Example C229_case : (forall p, In p three -> 0 < pt_sq p) /\ neighbours three 3 0 1 /\ neighbours three 3 2 1 /\ ~ neighbours three 3 2 0 /\ distinct_directions three /\ (2 < length three)%nat.
Proof.
  pose proof PI_4. assert (P3 : 3 < PI) by (pose proof PI2_3_2; lra). pose proof three_pt as PT. destruct three_all as (S01 & S10 & S21 & S12 & S20 & S02).
  split; [exact PT|]. split; [split; [discriminate | exists (PI / 2); split; [exact S01 | lra]]|]. split; [split; [discriminate | exists (PI / 2); split; [exact S21 | lra]]|].
  split; [intros (_ & d & SD & L); pose proof (separated_unique _ _ _ _ _ PT SD S20); lra|]. split; [|cbn; lia].
  intros i j N SD. destruct (three_dist i j 0 N SD); lra.
Qed.
Print Assumptions C229_edges.
Print Assumptions C229_rotation.
Print Assumptions C229_boost.
Print Assumptions C230_knn_graph.
