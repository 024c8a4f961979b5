(** Properties C36-C39: graph searches. *)
From Verif Require Import Prelude Dict Keys MaskTypes SpecArray SpecAdj Arrays ArraysProofs Composite Adjacency AdjacencyProofs Descend DescendProofs.

(** * C36 *)

Theorem C36_vertex_descendants : forall es v, exists m,
  vertex_descendants es v = Ok m /\ length m = length es /\
  forall i a b, nth_error es i = Some (a, b) -> exists x, nth_error m i = Some x /\
    (src_of es v -> (x = true <-> reach es v a)) /\ (~ src_of es v -> (x = true <-> b = v)).
Proof. exact vertex_descendants_ok. Qed.
Print Assumptions C36_vertex_descendants.

(** The result is closed under following edges, and nothing upstream-only is marked. *)
Theorem C36_closed : forall es v m i j a b c,
  src_of es v -> vertex_descendants es v = Ok m ->
  nth_error es i = Some (a, b) -> nth_error es j = Some (b, c) ->
  nth_error m i = Some true -> nth_error m j = Some true.
Proof.
  intros es v m i j a b c Hs Hm Hi Hj Mi. destruct (vertex_descendants_ok es v) as (m' & E & _ & H).
  assert (m' = m) by congruence; subst m'.
  destruct (H i a b Hi) as (x & Ex & Hx & _). destruct (H j b c Hj) as (y & Ey & Hy & _).
  rewrite Ey. f_equal. apply Hy; [exact Hs|]. apply R_step with a; [|eapply nth_error_In; exact Hi].
  apply Hx; [exact Hs|]. congruence.
Qed.
Print Assumptions C36_closed.

(** Cycles, parallel edges, self loops, negative labels. *)
Example C36_case :
  vertex_descendants [(-1, -2); (-2, -3); (-3, -2); (5, -1); (-3, 7); (-3, 7); (8, 8); (8, -1)]%Z (-2) =
    Ok [false; true; true; false; true; true; false; false] /\
  vertex_descendants [(-1, -2); (-2, -3); (-3, -2); (5, -1); (-3, 7); (-3, 7); (8, 8)]%Z 7 =
    Ok [false; false; false; false; true; true; false].
Proof. split; reflexivity. Qed.

(** * C37 *)

Theorem C37_edge_descendants : forall es a b m,
  fits32 a -> fits32 b -> vertex_descendants es b = Ok m ->
  exists d, edge_descendants es (a, b) = Ok d /\ length d = length es /\
  forall i e, nth_error es i = Some e -> exists x, nth_error d i = Some x /\
    (x = true <-> e = (a, b) \/ nth_error m i = Some true).
Proof.
  intros es a b m Ha Hb Hm. unfold edge_descendants. cbn [fst snd]. rewrite Hm. cbn [bind].
  destruct (vertex_descendants_ok es b) as (m' & E & HL & _). assert (m' = m) by congruence; subst m'.
  eexists. split; [reflexivity|]. split; [rewrite map2_length, HL, Nat.min_id; reflexivity|].
  intros i e Hi. rewrite map2_nth, Hi.
  destruct (nth_error_in_range m i) as (x & Hx); [rewrite HL; apply nth_error_Some; congruence|].
  rewrite Hx. eexists. split; [reflexivity|]. rewrite !wrap32_id by assumption. rewrite orb_true_iff.
  unfold pair_eqb. cbn [fst snd]. rewrite andb_true_iff, !Z.eqb_eq. destruct e as [c d]. cbn [fst snd].
  split; intros [H|H]; [right; congruence | left; destruct H; congruence | right; injection H; auto | left; congruence].
Qed.
Print Assumptions C37_edge_descendants.

(** In graph terms. *)
Theorem C37_reach : forall es a b, fits32 a -> fits32 b -> src_of es b ->
  exists d, edge_descendants es (a, b) = Ok d /\ length d = length es /\
  forall i c e, nth_error es i = Some (c, e) -> exists x, nth_error d i = Some x /\
    (x = true <-> (c, e) = (a, b) \/ reach es b c).
Proof.
  intros es a b Ha Hb Hs. destruct (vertex_descendants_ok es b) as (m & E & HL & H).
  destruct (C37_edge_descendants es a b m Ha Hb E) as (d & Ed & Ld & Hd). exists d. split; [exact Ed|]. split; [exact Ld|].
  intros i c e Hi. destruct (Hd i _ Hi) as (x & Ex & Hx). destruct (H i c e Hi) as (y & Ey & Hy & _).
  exists x. split; [exact Ex|]. rewrite Hx, Ey, <- (Hy Hs). split; intros [K|K]; auto; right; congruence.
Qed.
Print Assumptions C37_reach.

Example C37_case : edge_descendants [(0, 1); (1, 2); (2, 3); (0, 2); (1, 2)]%Z (1, 2)%Z = Ok [false; true; true; false; true].
Proof. reflexivity. Qed.

(** * C38 *)

Theorem C38_hadron_vertices : forall es status,
  length status = length es -> Forall fits16 status ->
  exists vs, hadron_vertices es status = Ok vs /\ StronglySorted Z.lt vs /\
    forall v, In v vs <-> exists i w s, nth_error es i = Some (v, w) /\ nth_error status i = Some s /\ (80 <= Z.abs s <= 90)%Z.
Proof.
  intros es status HL HF. destruct (in_range_spec status 80 (Some 90%Z) false HF) as [LR HR].
  unfold hadron_vertices. rewrite getkey_mask by congruence. cbn [bind].
  eexists. split; [reflexivity|]. split; [apply unique_sorted|]. intros v. rewrite unique_In, in_map_iff.
  assert (K : forall i s, nth_error status i = Some s ->
    (nth_error (in_range status 80 (Some 90%Z) false) i = Some true <-> (80 <= Z.abs s <= 90)%Z)).
  { intros i s Hs. destruct (HR i s Hs) as (b & Eb & Hb). cbv zeta in Hb. rewrite Eb.
    assert (E : b = true <-> (80 <= Z.abs s <= 90)%Z).
    { rewrite Hb. destruct (Z.eqb_spec s (- 2 ^ 15)) as [->|Hn].
      - split; [intros [H _]; exfalso; lia | intros [_ H]; exfalso; lia].
      - split; [intros [H1 H2]; split; [exact H1 | apply H2; reflexivity] | intros [H1 H2]; split; [exact H1|]; intros h Eh; injection Eh as <-; exact H2]. }
    rewrite <- E. split; congruence. }
  split.
  - intros ([a w] & <- & H). apply compress_In in H as (i & H1 & H2).
    assert (exists s, nth_error status i = Some s) as (s & Hs)
      by (apply nth_error_in_range; rewrite HL; apply nth_error_Some; congruence).
    exists i, w, s. cbn. split; [exact H2|]. split; [exact Hs|]. apply (K i s Hs); exact H1.
  - intros (i & w & s & H1 & H2 & H3). exists (v, w). split; [reflexivity|]. apply compress_In. exists i.
    split; [apply (K i s H2); exact H3 | exact H1].
Qed.
Print Assumptions C38_hadron_vertices.

(** Statuses of another length: IndexError. *)
Theorem C38_lengths : forall es status, Forall fits16 status -> length status <> length es ->
  hadron_vertices es status = Err IndexError.
Proof.
  intros es status HF HL. destruct (in_range_spec status 80 (Some 90%Z) false HF) as [LR _].
  unfold hadron_vertices, getkey. cbn [resolve]. rewrite LR. destruct (Nat.eqb_spec (length status) (length es)); [contradiction | reflexivity].
Qed.
Print Assumptions C38_lengths.

Example C38_case : hadron_vertices [(-5, 1); (-2, 3); (-5, 4); (7, 8); (9, 9)]%Z [83; -84; 90; 91; 79]%Z = Ok [-5; -2]%Z.
Proof. reflexivity. Qed.

(** * C39 *)

Theorem C39_find_vertex : forall es pdg pin pout,
  length pdg = length es -> (pin <> None \/ pout <> None) ->
  exists vs, find_vertex es pdg pin pout = Ok vs /\ StronglySorted Z.lt vs /\
    forall v, In v vs <-> vertex es v /\
      (forall s z, pin = Some s -> In z s -> exists i a, nth_error es i = Some (a, v) /\ nth_error pdg i = Some z) /\
      (forall s z, pout = Some s -> In z s -> exists i b, nth_error es i = Some (v, b) /\ nth_error pdg i = Some z).
Proof. exact find_vertex_ok. Qed.
Print Assumptions C39_find_vertex.

Theorem C39_errors : forall es pdg pin pout,
  (find_vertex es pdg None None = Err ValueError) /\
  (length pdg <> length es -> find_vertex es pdg pin pout = Err ValueError).
Proof.
  intros es pdg pin pout. split; [reflexivity|]. intros H. unfold find_vertex.
  destruct (Nat.eqb_spec (length pdg) (length es)); [contradiction|]. destruct pin, pout; reflexivity.
Qed.
Print Assumptions C39_errors.

(** W -> u d~ at vertex 2 and t -> W b at vertex 1; the root 0 has no incoming particle. *)
Example C39_case :
  let es := [(0, 1); (1, 2); (1, 3); (2, 4); (2, 5)]%Z in let pdg := [6; 24; 5; 2; -1]%Z in
  find_vertex es pdg (Some [24]%Z) None = Ok [2]%Z /\
  find_vertex es pdg (Some [6]%Z) (Some [5; 24]%Z) = Ok [1]%Z /\
  find_vertex es pdg None (Some [6]%Z) = Ok [0]%Z /\
  find_vertex es pdg (Some [6]%Z) (Some [5; 23]%Z) = Ok [] /\
  find_vertex es pdg (Some []) None = Ok [0; 1; 2; 3; 4; 5]%Z.
Proof. repeat split; reflexivity. Qed.
