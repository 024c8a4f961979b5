(** Properties C23-C29: ParticleSet and Graphicle. *)
From Verif Require Import Prelude Dict Keys MaskTypes SpecArray Arrays ArraysProofs Composite SpecComposite CompositeProofs.

(** * C23: aligned slicing *)

Theorem C23_particle_set : forall {F} n (s : pset F) k ps,
  aligned n s -> sub_key k -> resolve n k = Ok ps ->
  exists t, pset_get s k = Ok t /\ picked_p ps s t /\ aligned (length ps) t.
Proof. intros F. exact pset_get_ok. Qed.
Print Assumptions C23_particle_set.

Theorem C23_graph : forall {F} n (g : graph F) k ps,
  aligned_g n g -> sub_key k -> resolve n k = Ok ps ->
  exists h, graph_get g k = Ok h /\ picked_g ps g h /\ aligned_g (length ps) h.
Proof. intros F. exact graph_get_ok. Qed.
Print Assumptions C23_graph.

(** A key that is not valid for n records is rejected, with numpy's error. *)
Theorem C23_invalid_key : forall {F} n (s : pset F) (g : graph F) k e,
  sub_key k -> resolve n k = Err e ->
  (aligned n s -> pset_len s <> 0 -> pset_get s k = Err e) /\
  (aligned_g n g -> graph_len g <> 0 -> graph_get g k = Err e).
Proof.
  intros F n s g k e Hk HR. split; intros HA HL.
  - eapply pset_get_err; eauto. destruct (pset_bool s) eqn:B; [reflexivity|].
    destruct HL. apply (pset_len_bool n s HA). exact B.
  - eapply graph_get_err; eauto. destruct (graph_bool g) eqn:B; [reflexivity|]. exfalso. apply HL.
    unfold graph_bool in B. apply orb_false_iff in B as [B1 B2].
    unfold graph_len. apply first_pos_zero. constructor.
    + destruct HA as [HA _]. apply (pset_len_bool n _ HA). exact B1.
    + constructor; [|constructor]. unfold truthy in B2. apply negb_false_iff, Nat.eqb_eq in B2. exact B2.
Qed.
Print Assumptions C23_invalid_key.

(** A three-particle set with momenta, codes and colours but no helicities. *)
Definition demo : pset Z := (mkP (Vec [6; -6; 21]) (Mat 4 [[1;2;3;4];[5;6;7;8];[9;10;11;12]])
  (Mat 2 [[501;0];[0;502];[502;501]]) (Vec []) (Vec [-22;-23;62]) (Vec [false;false;true]))%Z.
Lemma demo_aligned : aligned 3 demo.
Proof.
  unfold aligned, demo, sized; cbn.
  split; [split; [exists [6; -6; 21]%Z; split; [reflexivity|] | right; reflexivity]
  | split; [split; [eexists; split; [reflexivity|] | right; reflexivity]
  | split; [split; [right; eexists; split; [reflexivity|]; split | right; reflexivity]
  | split; [split; [eexists; split; [reflexivity|] | left; reflexivity]
  | split; [split; [eexists; split; [reflexivity|] | right; reflexivity]
  | split; [eexists; reflexivity | right; reflexivity]]]]]];
  repeat constructor; unfold fits32, fits16; cbn; lia.
Qed.
Definition demo_g : graph Z := mkG demo (mkA (Mat 2 [[0;-1];[-1;-2];[-1;-3]]%Z) []).
Lemma demo_g_aligned : aligned_g 3 demo_g.
Proof.
  split; [exact demo_aligned|]. cbn. split; [|right; reflexivity]. right. eexists. split; [reflexivity|].
  split; repeat constructor; unfold fits32; cbn; lia.
Qed.
Example C23_case : pset_get demo (KSlice None None (Some (-2)%Z)) =
  Ok (mkP (Vec [21;6]) (Mat 4 [[9;10;11;12];[1;2;3;4]]) (Mat 2 [[502;501];[501;0]]) (Vec []) (Vec [62;-22]) (Vec [true;false]))%Z.
Proof. reflexivity. Qed.
(** Outside the claim: one integer on a set with colours gives two colour records for one particle. *)
Example C23_integer_key_misaligns : exists t, pset_get demo (KInt 0) = Ok t /\ nd_len (p_pdg t) = 1 /\ nd_len (p_color t) = 2.
Proof. eexists. split; [reflexivity|]. split; reflexivity. Qed.

(** * C24: composition *)

Theorem C24_chained_particle_set : forall {F} n (s : pset F) k1 k2 p1 p2,
  aligned n s -> sub_key k1 -> sub_key k2 ->
  resolve n k1 = Ok p1 -> resolve (length p1) k2 = Ok p2 ->
  exists t u, pset_get s k1 = Ok t /\ pset_get t k2 = Ok u /\
    picked_p (map (fun q => nth q p1 0) p2) s u.
Proof.
  intros F n s k1 k2 p1 p2 HA H1 H2 R1 R2.
  destruct (pset_get_ok n s k1 p1 HA H1 R1) as (t & Ht & P1 & A1).
  destruct (pset_get_ok _ t k2 p2 A1 H2 R2) as (u & Hu & P2 & A2).
  exists t, u. split; [exact Ht|]. split; [exact Hu|]. eapply picked_p_trans; [exact HA | exact A1 | | exact P1 | exact P2].
  intros q Hq. eapply resolve_lt; eauto.
Qed.
Print Assumptions C24_chained_particle_set.

Theorem C24_chained_graph : forall {F} n (s : graph F) k1 k2 p1 p2,
  aligned_g n s -> sub_key k1 -> sub_key k2 ->
  resolve n k1 = Ok p1 -> resolve (length p1) k2 = Ok p2 ->
  exists t u, graph_get s k1 = Ok t /\ graph_get t k2 = Ok u /\
    picked_g (map (fun q => nth q p1 0) p2) s u.
Proof.
  intros F n s k1 k2 p1 p2 HA H1 H2 R1 R2.
  destruct (graph_get_ok n s k1 p1 HA H1 R1) as (t & Ht & P1 & A1).
  destruct (graph_get_ok _ t k2 p2 A1 H2 R2) as (u & Hu & P2 & A2).
  exists t, u. split; [exact Ht|]. split; [exact Hu|]. eapply picked_g_trans; [exact HA | exact A1 | | exact P1 | exact P2].
  intros q Hq. eapply resolve_lt; eauto.
Qed.
Print Assumptions C24_chained_graph.

(** The composed mask: position i is kept iff m1 keeps it and m2 keeps its
    rank among the kept ones; one slice with it shows the same records. *)
Theorem C24_masks : forall {F} n (g : graph F) m1 m2,
  aligned_g n g -> length m1 = n -> length m2 = count_true m1 ->
  exists h1 h2 h, graph_get g (KMask m1) = Ok h1 /\ graph_get h1 (KMask m2) = Ok h2 /\
    graph_get g (KMask (both m1 m2)) = Ok h /\ same_g h2 h.
Proof.
  intros F n g m1 m2 HA L1 L2.
  assert (R1 : resolve n (KMask m1) = Ok (positions m1)) by (cbn; rewrite L1, Nat.eqb_refl; reflexivity).
  assert (R2 : resolve (length (positions m1)) (KMask m2) = Ok (positions m2))
    by (cbn; rewrite L2, positions_length, Nat.eqb_refl; reflexivity).
  assert (R3 : resolve n (KMask (both m1 m2)) = Ok (positions (both m1 m2)))
    by (cbn; rewrite both_length, L1, Nat.eqb_refl; reflexivity).
  destruct (C24_chained_graph n g (KMask m1) (KMask m2) _ _ HA I I R1 R2) as (t & u & Ht & Hu & P).
  destruct (graph_get_ok n g (KMask (both m1 m2)) _ HA I R3) as (h & Hh & Q & _).
  exists t, u, h. split; [exact Ht|]. split; [exact Hu|]. split; [exact Hh|].
  rewrite (both_positions m1 m2 L2) in Q. destruct P as [P1 P2], Q as [Q1 Q2]. split.
  - eapply picked_p_fun; eassumption.
  - eapply picked_fun; eassumption.
Qed.
Print Assumptions C24_masks.

Theorem C24_both_marks : forall m1 m2 i, length m2 = count_true m1 ->
  (nth_error (both m1 m2) i = Some true <->
   nth_error m1 i = Some true /\ nth_error m2 (count_true (firstn i m1)) = Some true).
Proof.
  induction m1 as [|b m1 IH]; intros m2 i H.
  - cbn. destruct i; intuition discriminate.
  - destruct b.
    + destruct m2 as [|c m2]; [discriminate|].
      assert (H' : length m2 = count_true m1) by (unfold count_true in *; cbn in H; lia).
      destruct i as [|i]; [cbn; intuition|]. cbn [both nth_error firstn]. rewrite (IH m2 i H').
      change (count_true (true :: firstn i m1)) with (S (count_true (firstn i m1))). reflexivity.
    + destruct i as [|i]; [cbn; intuition discriminate|]. cbn [both nth_error firstn]. apply (IH m2 i H).
Qed.
Print Assumptions C24_both_marks.

Example C24_case : exists h1 h2, graph_get demo_g (KMask [true; false; true]) = Ok h1 /\
  graph_get h1 (KMask [false; true]) = Ok h2 /\ p_pdg (g_part h2) = Vec [21]%Z /\ both [true; false; true] [false; true] = [false; false; true].
Proof. eexists _, _. repeat split. Qed.

(** * C25: len and bool *)

Theorem C25_particle_set : forall {F} n (s : pset F), aligned n s -> 0 < n ->
  (~ (nd_len (p_pdg s) = 0 /\ nd_len (p_pmu s) = 0 /\ nd_len (p_color s) = 0 /\
      nd_len (p_hel s) = 0 /\ nd_len (p_status s) = 0 /\ nd_len (p_final s) = 0) ->
   pset_len s = n /\ pset_bool s = true) /\
  ((nd_len (p_pdg s) = 0 /\ nd_len (p_pmu s) = 0 /\ nd_len (p_color s) = 0 /\
      nd_len (p_hel s) = 0 /\ nd_len (p_status s) = 0 /\ nd_len (p_final s) = 0) ->
   pset_len s = 0 /\ pset_bool s = false).
Proof.
  intros F n s HA Hn. destruct (pset_len_bool n s HA) as [HT HF]. split; intros H.
  - destruct (pset_bool s) eqn:B; [auto|]. destruct H. apply pset_bool_spec. exact B.
  - apply pset_bool_spec in H. auto.
Qed.
Print Assumptions C25_particle_set.

Theorem C25_graph : forall {F} n (g : graph F), aligned_g n g -> 0 < n ->
  (pset_len (g_part g) <> 0 \/ nd_len (a_data (g_adj g)) <> 0 -> graph_len g = n /\ graph_bool g = true) /\
  (pset_len (g_part g) = 0 /\ nd_len (a_data (g_adj g)) = 0 -> graph_len g = 0 /\ graph_bool g = false).
Proof.
  intros F n g (HA & HP & HS) Hn. destruct (pset_len_bool n _ HA) as [HT HF].
  assert (S1 : pset_len (g_part g) = 0 \/ pset_len (g_part g) = n) by (destruct (pset_bool (g_part g)); auto).
  unfold graph_len, graph_bool, truthy. split.
  - intros H. split.
    + apply first_pos_all.
      * repeat (apply Forall_cons; [assumption|]). apply Forall_nil.
      * unfold sized in HS. apply Exists_exists. exists n. split; [|reflexivity]. cbn. lia.
    + apply orb_true_iff. destruct (Nat.eqb_spec (nd_len (a_data (g_adj g))) 0); [left | right; reflexivity].
      destruct (pset_bool (g_part g)) eqn:B; [reflexivity|]. specialize (HF eq_refl). lia.
  - intros [H1 H2]. rewrite H1, H2. split; [reflexivity|]. cbn. rewrite orb_false_r.
    destruct (pset_bool (g_part g)) eqn:B; [|reflexivity]. specialize (HT eq_refl). lia.
Qed.
Print Assumptions C25_graph.

Example C25_case : pset_len demo = 3 /\ graph_len demo_g = 3 /\ graph_bool (mkG empty_p (g_adj demo_g)) = true.
Proof. repeat split. Qed.

(** * C26, C189: copy *)

Theorem C189_copy_weights_refuted : exists (g h : graph Z),
  aligned_g 3 g /\ graph_copy g = Ok h /\ a_weights (g_adj g) <> a_weights (g_adj h).
Proof.
  exists (mkG demo (mkA (a_data (g_adj demo_g)) [7;8;9]%Z)). eexists. split; [exact demo_g_aligned|].
  split; [reflexivity|]. discriminate.
Qed.
Print Assumptions C189_copy_weights_refuted.

Theorem C26_copy_records : forall {F} n,
  (forall s : pset F, aligned n s -> exists t, pset_copy s = Ok t /\ same_p s t) /\
  (forall g : graph F, aligned_g n g -> exists h, graph_copy g = Ok h /\ same_g g h).
Proof.
  intros F n. split.
  - intros s H. eapply pset_copy_same; exact H.
  - intros g H. eapply graph_copy_same; exact H.
Qed.
Print Assumptions C26_copy_records.

(** The weights never survive a copy or a subscript. *)
Theorem C189_weights_dropped_partial : forall {F} (g h : graph F) k, graph_copy g = Ok h \/ graph_get g k = Ok h -> a_weights (g_adj h) = [].
Proof.
  intros F g h k [H|H].
  - unfold graph_copy in H. apply bind_ok in H as (p & _ & H). apply bind_ok in H as (a & Ha & H).
    injection H as <-. cbn. destruct (truthy (a_data (g_adj g))).
    + unfold adjl_copy in Ha. apply bind_ok in Ha as (d & _ & Ha). injection Ha as <-. reflexivity.
    + injection Ha as <-. reflexivity.
  - unfold graph_get in H. apply bind_ok in H as (p & _ & H). apply bind_ok in H as (a & Ha & H).
    injection H as <-. cbn. destruct (truthy (a_data (g_adj g))).
    + unfold adjl_get in Ha. apply bind_ok in Ha as (d & _ & Ha). injection Ha as <-. reflexivity.
    + injection Ha as <-. reflexivity.
Qed.
Print Assumptions C189_weights_dropped_partial.

(** * C27: LHE events *)

Theorem C27_lhe_event : forall {F} n (pdg hel status : list Z) (pmu : list (list F)) (color : list (list Z)),
  length pdg = n -> length hel = n -> length status = n -> length pmu = n -> length color = n -> 0 < n ->
  Forall fits32 pdg -> Forall fits16 hel -> Forall fits16 status ->
  Forall (fun r => length r = 4) pmu -> Forall (fun r => length r = 2) color -> Forall (Forall fits32) color ->
  from_lhe_event (mkL (Plain (Vec pdg)) (Plain (Mat 4 pmu)) (Plain (Mat 2 color)) (Plain (Vec hel)) (Plain (Vec status)))
  = Ok (mkP (Vec pdg) (Mat 4 pmu) (Mat 2 color) (Vec hel) (Vec (map recode status)) (Vec (repeat false n))).
Proof.
  intros F n pdg hel status pmu color L1 L2 L3 L4 L5 Hn F1 F2 F3 F4 F5 F6. unfold from_lhe_event, from_numpy.
  cbn [l_pdg l_pmu l_color l_hel l_status optional].
  rewrite (codes32_new (Vec pdg)) by (exists pdg; auto).
  rewrite (momenta_new (Mat 4 pmu)) by (exists pmu; auto).
  rewrite (proj1 (pairs_new (Mat 2 color) (pairs_mat _ F5 F6))).
  rewrite (proj2 (codes16_new (Vec hel) (ex_intro _ hel (conj eq_refl F2)))).
  rewrite (proj1 (codes16_new (Vec status) (ex_intro _ status (conj eq_refl F3)))).
  cbn [bind p_pdg p_pmu p_color p_hel p_status]. rewrite recode_loop_map. do 2 f_equal.
  unfold pset_len. cbn [nd_len p_pdg p_pmu p_color p_hel p_status p_final]. rewrite L1. unfold first_pos. cbn [find].
  destruct n; [lia | reflexivity].
Qed.
Print Assumptions C27_lhe_event.

(** Any accepted input: statuses as stored, then recoded; other components those of from_numpy. *)
Theorem C27_any_input : forall {F} (e : lhe F) s,
  from_numpy (Some (l_pdg e)) (Some (l_pmu e)) (Some (l_color e)) (Some (l_hel e)) (Some (l_status e)) None = Ok s ->
  exists t, from_lhe_event e = Ok t /\
    p_pdg t = p_pdg s /\ p_pmu t = p_pmu s /\ p_color t = p_color s /\ p_hel t = p_hel s /\
    elems (p_status t) = map recode (elems (p_status s)) /\ p_final t = Vec (repeat false (pset_len s)).
Proof.
  intros F e s H. unfold from_lhe_event. rewrite H. cbn [bind]. eexists. split; [reflexivity|]. cbn.
  repeat (split; [reflexivity|]). split; [|reflexivity].
  assert (NS : match p_status s with Sc _ => False | _ => True end).
  { unfold from_numpy in H. repeat (apply bind_ok in H as (? & ? & H)). injection H as <-. cbn.
    match goal with G : optional status_new _ _ = Ok ?x |- _ => cbn in G; unfold status_new, converter in G;
      apply bind_ok in G as (y & _ & G); destruct y as [a|l|c r]; cbn in G;
      repeat match type of G with context [if ?b then _ else _] => destruct b end; try discriminate G; injection G as <-; exact I end. }
  destruct (p_status s) as [z|l|c r]; [destruct NS| |]; cbn.
  - apply recode_loop_map.
  - rewrite concat_map. f_equal. apply map_ext. exact recode_loop_map.
Qed.
Print Assumptions C27_any_input.

Example C27_case : map recode [-1; -1; 2; 1; 1; 3; -9; -2; 7]%Z = [-21; -21; -22; -23; -23; -22; -12; -22; 7]%Z.
Proof. reflexivity. Qed.

(** * C28: the caller's event *)

Theorem C28_event_untouched_refuted : exists h r h' r' b b',
  lhe_status_effect h r = Ok (h', r') /\ nth_error h r = Some b /\ nth_error h' r = Some b' /\ b_data b <> b_data b'.
Proof.
  exists [mkB true true [-1; -1; 2; 1; 1]%Z], 0. eexists _, _, _, _. repeat split. discriminate.
Qed.
Print Assumptions C28_event_untouched_refuted.

(** What does hold: other dtypes and strided views are copied, and the caller
    keeps every array; a contiguous int16 array is overwritten with the recoded
    statuses and no other array changes. *)
Theorem C28_event_untouched_partial : forall h r b, nth_error h r = Some b ->
  exists h' r', lhe_status_effect h r = Ok (h', r') /\
    (b_int16 b && b_contig b = false ->
       (forall i x, nth_error h i = Some x -> nth_error h' i = Some x) /\
       exists c, nth_error h' r' = Some c /\ b_data c = map (fun z => recode (wrap16 z)) (b_data b)) /\
    (b_int16 b && b_contig b = true ->
       r' = r /\ (forall i, i <> r -> nth_error h' i = nth_error h i) /\
       exists c, nth_error h' r = Some c /\ b_data c = map recode (b_data b)).
Proof.
  intros h r b Hb. unfold lhe_status_effect, status_ref. unfold get at 1. rewrite Hb. cbn [bind].
  destruct (b_int16 b && b_contig b); cbn [bind fst snd].
  - unfold get. rewrite Hb. cbn [bind]. eexists _, _. split; [reflexivity|]. split; [discriminate|]. intros _.
    split; [reflexivity|]. split.
    + intros i Hi. rewrite set_nth_nth. destruct (Nat.eqb_spec r i); [congruence | reflexivity].
    + rewrite set_nth_nth, Nat.eqb_refl, Hb. eexists. split; [reflexivity|]. cbn. apply recode_loop_map.
  - unfold get. rewrite nth_error_app2 by lia. rewrite Nat.sub_diag. cbn [nth_error bind].
    eexists _, _. split; [reflexivity|]. split; [|discriminate]. intros _. split.
    + intros i x Hx. assert (i < length h) by (apply nth_error_Some; congruence). rewrite set_nth_nth.
      destruct (Nat.eqb_spec (length h) i); [lia|]. rewrite nth_error_app1 by lia. exact Hx.
    + rewrite set_nth_nth, Nat.eqb_refl, nth_error_app2 by lia. rewrite Nat.sub_diag. cbn [nth_error].
      eexists. split; [reflexivity|]. cbn [b_data]. rewrite recode_loop_map, map_map. reflexivity.
Qed.
Print Assumptions C28_event_untouched_partial.

(** * C29: serialize *)

Theorem C29_particle_set : forall {F} n (s : pset F), aligned n s ->
  exists pdg pmu color hel status final,
    pset_serialize s = Ok [("pdg", SInts pdg); ("pmu", SMom pmu); ("color", SPairs color);
                           ("helicity", SInts hel); ("status", SInts status); ("final", SBools final)]%string /\
    map (fun z => [z]) pdg = rows (p_pdg s) /\ map (fun '(x, y, z, e) => [x; y; z; e]) pmu = rows (p_pmu s) /\
    map (fun '(a, b) => [a; b]) color = rows (p_color s) /\ map (fun z => [z]) hel = rows (p_hel s) /\
    map (fun z => [z]) status = rows (p_status s) /\ map (fun b => [b]) final = rows (p_final s).
Proof.
  intros F n s ((A1 & _) & (A2 & _) & (A3 & _) & (A4 & _) & (A5 & _) & (A6 & _)).
  destruct (ser_momenta _ A2) as (pmu & E2 & M2). destruct (ser_pairs _ A3) as (col & E3 & M3).
  destruct A1 as (l1 & E1 & _), A4 as (l4 & E4 & _), A5 as (l5 & E5 & _), A6 as (l6 & E6).
  exists l1, pmu, col, l4, l5, l6. unfold pset_serialize. rewrite E1, E2, E3, E4, E5, E6. cbn [ser_vec bind rows].
  rewrite M2, M3. auto 10.
Qed.
Print Assumptions C29_particle_set.

Theorem C29_graph : forall {F} n (g : graph F), aligned_g n g ->
  exists d adj, pset_serialize (g_part g) = Ok d /\ graph_serialize g = Ok (d ++ [("adj"%string, SPairs adj)]) /\
    map (fun '(a, b) => [a; b]) adj = rows (a_data (g_adj g)).
Proof.
  intros F n g (HA & HP & _). destruct (C29_particle_set n _ HA) as (a & b & c & d & e & f & E & _).
  destruct (ser_pairs _ HP) as (adj & Ea & Ma). eexists _, adj. split; [exact E|].
  unfold graph_serialize. rewrite E, Ea. cbn [bind]. split; [reflexivity | exact Ma].
Qed.
Print Assumptions C29_graph.

Theorem C29_rebuild : forall {F} n (s : pset F), aligned n s ->
  exists d t, pset_serialize s = Ok d /\ rebuild d = Ok t /\ same_p s t.
Proof.
  intros F n s HA. destruct (C29_particle_set n s HA) as (a & b & c & d & e & f & E & R1 & R2 & R3 & R4 & R5 & R6).
  eexists. destruct HA as ((A1 & _) & (A2 & _) & (A3 & _) & (A4 & _) & (A5 & _) & (A6 & _)).
  assert (inj : forall {X} (l l' : list X), map (fun z => [z]) l = map (fun z => [z]) l' -> l = l').
  { intros X l. induction l as [|x l IH]; intros [|y l'] H; try discriminate; [reflexivity|].
    cbn in H. injection H as -> H. f_equal. apply IH; exact H. }
  assert (C1 : codes fits32 (Vec a)).
  { destruct A1 as (l & El & Hl). exists a. split; [reflexivity|]. rewrite El in R1. apply inj in R1. subst; exact Hl. }
  assert (C4 : codes fits16 (Vec d)).
  { destruct A4 as (l & El & Hl). exists d. split; [reflexivity|]. rewrite El in R4. apply inj in R4. subst; exact Hl. }
  assert (C5 : codes fits16 (Vec e)).
  { destruct A5 as (l & El & Hl). exists e. split; [reflexivity|]. rewrite El in R5. apply inj in R5. subst; exact Hl. }
  assert (M : exists y, pmu_new (Plain (rows4 b)) = Ok y /\ rows y = rows (p_pmu s)).
  { destruct b as [|p b].
    - exists (Mat 4 []). split; [reflexivity|]. cbn in R2. cbn. exact R2.
    - exists (Mat 4 (rows (p_pmu s))). split; [|reflexivity]. unfold rows4. rewrite R2. apply momenta_new.
      destruct A2 as (r & -> & Hr). exists r. auto. }
  assert (P : exists y, color_new (Plain (rows2 c)) = Ok y /\ rows y = rows (p_color s)).
  { destruct c as [|p c].
    - exists (Vec []). split; [reflexivity|]. cbn in R3. cbn. exact R3.
    - exists (Mat 2 (rows (p_color s))). split; [|reflexivity]. unfold rows2. rewrite R3. apply pairs_new.
      destruct A3 as [E3|(r & -> & Hr)]; [rewrite E3 in R3; destruct p; discriminate|]. right. exists r. tauto. }
  destruct M as (y2 & M & N2), P as (y3 & P & N3).
  exists (mkP (Vec a) y2 y3 (Vec d) (Vec e) (Vec f)). split; [exact E|]. split.
  - unfold rebuild, from_numpy. cbn -[pdg_new pmu_new color_new helicity_new status_new mask_new].
    rewrite (codes32_new _ C1), M, P, (proj2 (codes16_new _ C4)), (proj1 (codes16_new _ C5)),
      (bools_new (Vec f)) by (exists f; reflexivity). reflexivity.
  - unfold same_p. cbn. auto 10.
Qed.
Print Assumptions C29_rebuild.

Example C29_case : pset_serialize demo = Ok [("pdg", SInts [6; -6; 21]); ("pmu", SMom [(1,2,3,4); (5,6,7,8); (9,10,11,12)]);
  ("color", SPairs [(501,0); (0,502); (502,501)]); ("helicity", SInts []); ("status", SInts [-22; -23; 62]);
  ("final", SBools [false; false; true])]%string%Z.
Proof. reflexivity. Qed.
