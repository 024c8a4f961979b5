(** Further theorems for C109, C113, C114 and C130, written after edited
    models survived the first versions (seeded/LOG.jsonl). *)
From Verif Require Import Prelude Dict Keys MaskTypes SpecArray Arrays ArraysProofs P_Arrays ArrayOps P_ArrayOps
  Composite SpecComposite SpecAdj Adjacency P_Adjacency Records SpecRecords P_Records.

(** * C109 *)

(** Flat arrays have one axis, called 0, -1 or left out; any other is an
    AxisError (a ValueError).  Momenta have two, 0 = -2 and 1, -1 (C110). *)
Theorem C109_axes : forall {A} (add : A -> A -> A) (zero : A) (new : nd A -> res (nd A)) (x : list A) (rows : list (list A)),
  (forall a, a = None \/ a = Some 0%Z \/ a = Some (-1)%Z ->
     ufunc_sum add zero new a (Vec x) = Ok (URaw (Sc (fold_right add zero x)))) /\
  (forall a, (a <> 0 -> a <> -1 -> ufunc_sum add zero new (Some a) (Vec x) = Err ValueError)%Z) /\
  pmu_sum add zero (Some (-2)%Z) (Mat 4 rows) = pmu_sum add zero (Some 0%Z) (Mat 4 rows) /\
  (forall a, (a < -2 \/ 1 < a -> pmu_sum add zero (Some a) (Mat 4 rows) = Err ValueError)%Z).
Proof.
  intros A add zero new x rows. split; [intros a [Ha | [Ha | Ha] ]; rewrite Ha; reflexivity|]. split; [|split; [reflexivity|]].
  - intros a H0 H1. unfold ufunc_sum, np_sum.
    destruct (Z.eqb_spec a 0); [contradiction|]. destruct (Z.eqb_spec a (-1)); [contradiction|]. reflexivity.
  - intros a H. unfold pmu_sum, ufunc_sum, np_sum.
    destruct (Z.eqb_spec a 0); [lia|]. destruct (Z.eqb_spec a (-2)); [lia|].
    destruct (Z.eqb_spec a 1); [lia|]. destruct (Z.eqb_spec a (-1)); [lia|]. reflexivity.
Qed.
Print Assumptions C109_axes.

Example C109_axes_case : pmu_sum Z.add 0%Z (Some (-2)%Z) (Mat 4 [[1; 2; 3; 4]; [10; 20; 30; 40]]%Z)
    = Ok (UArr (Mat 4 [[11; 22; 33; 44]]%Z)) /\
  ufunc_sum Z.add 0%Z (fun r => pdg_new (Plain r)) (Some 1%Z) (Vec [1; 2]%Z) = Err ValueError.
Proof. split; reflexivity. Qed.

(** * C113 *)

(** Rows whose length is not a multiple of the record width are refused, as is
    any number of rows other than the width. *)
Theorem C113_ragged_width_partial : forall {A} (eqb : A -> A -> bool) c k (x y : list (list A)),
  length y <> c \/ k mod c <> 0 ->
  rec_eq eqb c x (RNested k y) = Err ValueError /\ rec_ne eqb c x (RNested k y) = Err ValueError.
Proof.
  intros A eqb c k x y H. unfold rec_eq, rec_ne, eq_prep.
  destruct (Nat.eqb_spec (length y) c); [|split; reflexivity].
  destruct (Nat.eqb_spec (k mod c) 0); [|split; reflexivity]. destruct H; contradiction.
Qed.
Print Assumptions C113_ragged_width_partial.

Example C113_ragged_case : rec_eq Z.eqb 2 [[1; 2]]%Z (RNested 3 [[1; 2; 3]; [4; 5; 6]]%Z) = Err ValueError.
Proof. reflexivity. Qed.

(** * C114 *)

Lemma loc_all table s : In s (map snd table) ->
  exists l, loc table s = Ok l /\ l <> [] /\ forall z, In z l <-> In (z, s) table.
Proof.
  intros H. unfold loc. set (l := map fst (filter (fun p : Z * string => String.eqb (snd p) s) table)).
  assert (I : forall z, In z l <-> In (z, s) table).
  { intros z. unfold l. rewrite in_map_iff. split.
    - intros ([z' s'] & E & F). apply filter_In in F as [F1 F2]. cbn in E, F2. apply String.eqb_eq in F2. subst. exact F1.
    - intros F. exists (z, s). split; [reflexivity|]. apply filter_In. split; [exact F | apply String.eqb_refl]. }
  apply in_map_iff in H as ([z s'] & E & H). cbn in E. subst s'. apply I in H.
  destruct l as [|a l'] eqn:EL; [destruct H|]. exists (a :: l'). split; [reflexivity|]. split; [discriminate | exact I].
Qed.

(** For every table (names may repeat): the array made from known names is the
    concatenation, in the order of the request, of one non-empty block per name,
    the block of a name holding exactly the codes of that name. *)
Theorem C114_all_codes : forall (table : list (Z * string)) (names : list string),
  Forall (fun p => fits32 (fst p)) table -> (forall s, In s names -> In s (map snd table)) ->
  exists blocks, from_name table names = Ok (Vec (concat blocks)) /\ length blocks = length names /\
    forall i s b, nth_error names i = Some s -> nth_error blocks i = Some b ->
      b <> [] /\ forall z, In z b <-> In (z, s) table.
Proof.
  intros table names HF HN.
  assert (P : exists blocks, mapM (loc table) names = Ok blocks /\ length blocks = length names /\
    forall i s b, nth_error names i = Some s -> nth_error blocks i = Some b ->
      b <> [] /\ forall z, In z b <-> In (z, s) table).
  { induction names as [|s names IH].
    - exists []. split; [reflexivity|]. split; [reflexivity|]. intros [|i] s b H; discriminate H.
    - destruct IH as (bs & M & L & IH); [intros s' Hs'; apply HN; right; exact Hs'|].
      destruct (loc_all table s) as (b & B1 & B2 & B3); [apply HN; left; reflexivity|].
      exists (b :: bs). cbn [mapM]. rewrite B1, M. split; [reflexivity|]. split; [cbn; congruence|].
      intros [|i] s' b' H1 H2; cbn in H1, H2; [injection H1 as <-; injection H2 as <-; auto | eauto]. }
  destruct P as (bs & M & L & P). exists bs. split; [|split; assumption].
  unfold from_name. rewrite M. unfold pdg_new, converter, to_plain. cbn [bind nd_map check_shape Nat.eqb].
  rewrite wrap32_list; [reflexivity|]. apply Forall_forall. intros z Hz. apply in_concat in Hz as (b & Hb & Hz).
  apply In_nth_error in Hb as (i & Hi).
  destruct (nth_error names i) as [s|] eqn:E.
  - destruct (P i s b E Hi) as [_ Q]. apply Q in Hz. rewrite Forall_forall in HF. apply (HF _ Hz).
  - apply nth_error_None in E. assert (i < length bs) by (apply nth_error_Some; congruence). lia.
Qed.
Print Assumptions C114_all_codes.

Example C114_all_codes_case :
  from_name [(11, "e"); (21, "g"); (-11, "e"); (9, "g")]%Z%string ["g"; "e"]%string = Ok (Vec [21; 9; 11; -11]%Z).
Proof. reflexivity. Qed.

(** * C130 *)

Lemma pset_eq_complete {F} (eqb : F -> F -> bool) n (s t : pset F) :
  aligned n s -> aligned n t -> complete s -> complete t -> pset_eq eqb s t = Ok true.
Proof.
  intros HA KA CG CH.
  assert (SL : same_layout s t).
  { pose proof HA as HA'. pose proof KA as KA'.
    destruct CG as (C1 & C2 & C3 & C4 & C5 & C6), CH as (D1 & D2 & D3 & D4 & D5 & D6).
    destruct HA' as ((_ & S1) & (_ & S2) & (_ & S3) & (_ & S4) & (_ & S5) & (_ & S6)).
    destruct KA' as ((_ & T1) & (_ & T2) & (_ & T3) & (_ & T4) & (_ & T5) & (_ & T6)).
    unfold sized in *. unfold same_layout.
    assert (P : forall {X Y} (x : nd X) (y : nd Y), nd_len x = 0 \/ nd_len x = n -> nd_len y = 0 \/ nd_len y = n ->
      nd_len x <> 0 -> nd_len y <> 0 -> nd_len x = nd_len y).
    { clear. intros X Y x y [A|A] [B|B] C D; congruence. }
    repeat split; apply P; assumption. }
  destruct (C130_equality_partial eqb n n _ _ HA KA SL) as (b & E & B). rewrite E. f_equal. apply B. exact CG.
Qed.

(** Graphs whose sets have the same components, at least one of them missing,
    are unequal, whatever the edges; one edge against two makes graphs with
    complete sets equal. *)
Theorem C130_graph_cases_partial : forall {F} (eqb : F -> F -> bool) n m (g h : graph F),
  aligned_g n g -> aligned_g m h ->
  (same_layout (g_part g) (g_part h) -> ~ complete (g_part g) -> graph_eq eqb g h = Ok false) /\
  (n = m -> complete (g_part g) -> complete (g_part h) -> nd_len (a_data (g_adj g)) = 1 ->
     nd_len (a_data (g_adj h)) = 2 -> graph_eq eqb g h = Ok true).
Proof.
  intros F eqb n m g h (HA & HP & _) (KA & KP & _). split.
  - intros SL NC. destruct (C130_equality_partial eqb n m _ _ HA KA SL) as (b & E & B). unfold graph_eq. rewrite E.
    cbn [bind]. destruct b; [exfalso; apply NC, B; reflexivity | reflexivity].
  - intros <- C1 C2 L1 L2. unfold graph_eq. rewrite (pset_eq_complete eqb n) by assumption. cbn [bind].
    destruct HP as [E|(r & E & R1 & R2)]; [rewrite E in L1; discriminate L1|].
    destruct KP as [K|(q & K & Q1 & Q2)]; [rewrite K in L2; discriminate L2|].
    rewrite E in L1. rewrite K in L2. cbn [nd_len] in L1, L2.
    destruct r as [|r1 [|]]; try discriminate L1. destruct q as [|q1 [|q2 [|]]]; try discriminate L2.
    pose proof (Forall_inv R1) as R11. pose proof (Forall_inv Q1) as Q11. pose proof (Forall_inv (Forall_inv_tail Q1)) as Q12.
    destruct r1 as [|a [|b [|]]]; try discriminate R11. destruct q1 as [|c [|d [|]]]; try discriminate Q11.
    destruct q2 as [|e [|f [|]]]; try discriminate Q12.
    pose proof (Forall_inv R2) as R21. cbn in R21.
    rewrite E, K.
    assert (X : adj_compare false (Mat 2 [[a; b]]) (OAdj (Mat 2 [[c; d]; [e; f]])) =
                Ok (Vec [xorb (pair_eqb (a, b) (c, d)) false; xorb (pair_eqb (a, b) (e, f)) false])).
    { apply (C35_one_against_two_partial false (a, b) (c, d) (e, f)).
      - inversion R21; assumption.
      - inversion R21 as [|? ? ? R22]; inversion R22; assumption. }
    rewrite X. reflexivity.
Qed.
Print Assumptions C130_graph_cases_partial.

(** Sets whose other components agree in presence and length but whose final
    masks differ in length cannot be compared. *)
Theorem C130_final_lengths_partial : forall {F} (eqb : F -> F -> bool) n m (s t : pset F) u v,
  aligned n s -> aligned m t -> complete s ->
  p_final s = Vec u -> p_final t = Vec v -> length u <> length v ->
  nd_len (p_pdg s) = nd_len (p_pdg t) -> nd_len (p_pmu s) = nd_len (p_pmu t) ->
  nd_len (p_color s) = nd_len (p_color t) -> nd_len (p_hel s) = nd_len (p_hel t) ->
  nd_len (p_status s) = nd_len (p_status t) ->
  pset_eq eqb s t = Err ValueError.
Proof.
  intros F eqb n m s t u v ((H1 & _) & (H2 & _) & (H3 & _) & (H4 & _) & (H5 & _) & _)
    ((K1 & _) & (K2 & _) & (K3 & _) & (K4 & _) & (K5 & _) & _) (C1 & C2 & C3 & C4 & C5 & _) EU EV NL L1 L2 L3 L4 L5.
  unfold pset_eq. rewrite EU, EV.
  rewrite <- (records_len4 _ H2) in C2. rewrite <- (records_len2 _ H3) in C3.
  rewrite <- (records_len4 _ H2), <- (records_len4 _ K2) in L2. rewrite <- (records_len2 _ H3), <- (records_len2 _ K3) in L3.
  destruct H1 as (x1 & A1 & _), K1 as (y1 & B1 & _), H4 as (x4 & A4 & _), K4 as (y4 & B4 & _),
    H5 as (x5 & A5 & _), K5 as (y5 & B5 & _).
  rewrite A1, B1 in *. rewrite A4, B4 in *. rewrite A5, B5 in *. cbn [nd_len] in *.
  destruct (flat_eq_len x1 y1 L1) as (m1 & -> & M1). destruct (rec_eq_len eqb 4 _ _ L2) as (m2 & -> & M2).
  destruct (rec_eq_len Z.eqb 2 _ _ L3) as (m3 & -> & M3). destruct (flat_eq_len x4 y4 L4) as (m4 & -> & M4).
  destruct (flat_eq_len x5 y5 L5) as (m5 & -> & M5).
  rewrite !and_then_vec, M1, M2, M3, M4, M5.
  apply Nat.eqb_neq in C1, C2, C3, C4, C5. rewrite C1, C2, C3, C4, C5.
  unfold mask_eq_nd. cbn [nd_len]. destruct (Nat.eqb_spec (length u) (length v)); [contradiction|]. reflexivity.
Qed.
Print Assumptions C130_final_lengths_partial.

Example C130_tight_cases :
  graph_eq Z.eqb (mkG (full 11 1) (mkA (Mat 2 [[-1; 1]]%Z) []))
                 (mkG (full 11 1) (mkA (Mat 2 [[-1; 1]; [1; 2]]%Z) [])) = Ok true /\
  (let s := mkP (Vec [11]%Z) (Mat 4 [[1; 1; 1; 1]]%Z) (Mat 2 [[0; 0]]%Z) (Vec [0%Z]) (Vec [1%Z]) in
   pset_eq Z.eqb (s (Vec [true])) (s (Vec [])) = Err ValueError).
Proof. split; reflexivity. Qed.
