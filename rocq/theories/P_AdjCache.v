(** C156: the cached quantities of an AdjacencyList, for every history of reads and writes. *)
From Verif Require Import Prelude Dict Keys MaskTypes SpecAdj Arrays Composite Adjacency AdjacencyProofs Descend DescendProofs SpecCache AdjCache.

Section PC.
Context {F : Type} (add : F -> F -> F) (zero : F) (ofZ : Z -> F) (argsort : list Z -> list nat).
Notation aval := (@aval F).
Notation aobj := (@aobj F).

(** The quantities as functions of the edges. *)
Definition p_nodes (es : edges) : res aval := Ok (VNodes (nodes argsort es)).
Definition p_roots (es : edges) : res aval := m <- roots es ;; Ok (VMask m).
Definition p_leaves (es : edges) : res aval := m <- leaves es ;; Ok (VMask m).
Definition p_matrix (es : edges) (w : list F) : res aval :=
  match w with
  | [] => m <- matrix_int es ;; Ok (VMatrix (map (map ofZ) m))
  | _ => m <- matrix_weighted add zero es w ;; Ok (VMatrix m)
  end.
Definition p_descendants (es : edges) (v : Z) : res aval := m <- vertex_descendants es v ;; Ok (VMask m).
Definition p_ending (es : edges) (v : Z) : res aval := Ok (VMask (map (fun e => Z.eqb (snd e) v) es)).

Notation frozenR := (frozen p_nodes p_roots p_leaves p_matrix p_descendants p_ending).
Notation currentR := (current p_nodes p_roots p_leaves p_matrix p_descendants).
Notation resultsR := (results add zero ofZ argsort).

(** The entries of [s] are those of [s0], whatever the values stored in them. *)
Definition like (s s0 : coo bool) : Prop := c_size s = c_size s0 /\ map fst (c_ent s) = map fst (c_ent s0).
Lemma row_of_fst {G} (l : list (nat * nat * G)) : map row_of l = map fst (map fst l).
Proof. rewrite map_map. reflexivity. Qed.
Lemma col_of_fst {G} (l : list (nat * nat * G)) : map col_of l = map snd (map fst l).
Proof. rewrite map_map. reflexivity. Qed.
Lemma filter_fst {G} (f : nat * nat -> bool) (l : list (nat * nat * G)) : map fst (filter (fun e => f (fst e)) l) = filter f (map fst l).
Proof. induction l as [|e l IH]; cbn; [reflexivity|]. destruct (f (fst e)); cbn; rewrite IH; reflexivity. Qed.
Lemma csr_row_like s s0 i : like s s0 -> csr_row s i = csr_row s0 i.
Proof.
  intros (_ & H). unfold csr_row. f_equal. rewrite !col_of_fst. unfold row_of. rewrite !(filter_fst (fun p => Nat.eqb (fst p) i)), H. reflexivity.
Qed.
Lemma bfs_loop_ext fuel succ succ' head : (forall i, succ i = succ' i) -> forall i nodes pred, bfs_loop fuel succ head i nodes pred = bfs_loop fuel succ' head i nodes pred.
Proof. intros H. induction fuel as [|f IH]; intros i ns pred; cbn; [reflexivity|]. destruct (nth_error ns i) as [p|]; [|reflexivity]. rewrite H. apply IH. Qed.
Lemma bft_like s s0 start : like s s0 -> bft_indices (c_size s) (csr_row s) start = bft_indices (c_size s0) (csr_row s0) start.
Proof. intros L. unfold bft_indices. rewrite (bfs_loop_ext _ (csr_row s) (csr_row s0) start (fun i => csr_row_like s s0 i L)). destruct L as (-> & _). reflexivity. Qed.
Lemma unsigned_like s s0 : like s s0 -> mkCoo (c_size s) (map (fun e => (fst e, true)) (c_ent s)) = mkCoo (c_size s0) (map (fun e => (fst e, true)) (c_ent s0)).
Proof.
  intros (E & H). rewrite E. f_equal. rewrite <- (map_map (@fst (nat * nat) bool) (fun p => (p, true)) (c_ent s)), H, map_map. reflexivity.
Qed.

(** The caches hold what belongs to the edges [e0]. *)
Definition of_edges (e0 : edges) (s : coo bool) : Prop := exists s0, sparse_signed e0 = Ok s0 /\ like s s0.
Definition caches (fz : option edges) (o : aobj) : Prop :=
  match fz with
  | None => o_relabel o = None /\ o_signed o = None /\ o_unsigned o = None /\ o_csr o = None
  | Some e0 => length e0 = length (o_es o) /\ o_relabel o = Some (edge_relabel e0) /\
      (forall s, o_signed o = Some s -> of_edges e0 s) /\ (forall s, o_unsigned o = Some s -> sparse_unsigned e0 = Ok s) /\ (forall s, o_csr o = Some s -> of_edges e0 s)
  end.
Definition same (o o' : aobj) : Prop := o_es o' = o_es o /\ o_w o' = o_w o.
Lemma same_refl o : same o o. Proof. split; reflexivity. Qed.

Lemma relabel_ok fz o : caches fz o -> exists o', relabel_ o = (Ok (edge_relabel (at_ fz (o_es o))), o') /\ caches (Some (at_ fz (o_es o))) o' /\ same o o'.
Proof.
  intros C. unfold relabel_. destruct fz as [e0|]; cbn [at_ caches] in *.
  - destruct C as (L & R & C). rewrite R. exists o. split; [reflexivity|]. split; [auto|apply same_refl].
  - destruct C as (R & S & U & K). rewrite R. eexists. split; [reflexivity|]. split; [|split; reflexivity]. cbn. rewrite S, U, K. repeat split; try discriminate.
Qed.
Lemma to_sparse_ok_ fz o : caches fz o -> let e0 := at_ fz (o_es o) in
  exists o', caches (Some e0) o' /\ same o o' /\
  match sparse_signed e0 with Err e => to_sparse_ o = (Err e, o') | Ok s0 => exists s, to_sparse_ o = (Ok s, o') /\ like s s0 end.
Proof.
  intros C e0. destruct (relabel_ok fz o C) as (o' & E & C' & S). exists o'. split; [exact C'|]. split; [exact S|]. fold e0 in E, C'.
  unfold to_sparse_, abind. rewrite E. unfold sparse_signed, to_sparse. destruct (edge_relabel e0) as [|p rl] eqn:R; [reflexivity|].
  eexists. split; [reflexivity|]. split; [reflexivity|]. cbn [c_ent]. assert (LR : length (p :: rl) = length e0) by (rewrite <- R; apply map_length).
  assert (G : forall (a : list (nat * nat)) (b : list bool), length b = length a -> map fst (combine a b) = a).
  { clear. induction a as [|x a IH]; intros [|y b] H; try discriminate; [reflexivity|]. cbn. rewrite IH; [reflexivity|]. cbn in H. congruence. }
  destruct C' as (L0 & _). destruct S as (SE & _). rewrite !G; [reflexivity | rewrite map_length, LR; reflexivity |]. rewrite map_length, LR. congruence.
Qed.
Lemma signed_ok fz o : caches fz o -> let e0 := at_ fz (o_es o) in
  exists o', caches (Some e0) o' /\ same o o' /\
  match sparse_signed e0 with Err e => signed_ o = (Err e, o') | Ok s0 => exists s, signed_ o = (Ok s, o') /\ like s s0 end.
Proof.
  intros C e0. unfold signed_. destruct (o_signed o) as [s|] eqn:ES.
  - destruct fz as [e|]; [|destruct C as (_ & S & _); congruence]. cbn [at_] in e0. subst e0. pose proof C as (_ & _ & CS & _). destruct (CS s ES) as (s0 & E0 & LK).
    exists o. split; [exact C|]. split; [apply same_refl|]. rewrite E0. exists s. auto.
  - destruct (to_sparse_ok_ fz o C) as (o' & C' & S & M). fold e0 in C', M. destruct (sparse_signed e0) as [s0|e] eqn:E0.
    + destruct M as (s & -> & LK). eexists. split; [|split; [|exists s; split; [reflexivity|exact LK]]]; [|exact S].
      destruct C' as (A1 & A2 & A3 & A4 & A5). cbn. repeat split; auto. intros s1 H1. injection H1 as <-. exists s0. auto.
    + rewrite M. exists o'. auto.
Qed.
Lemma unsigned_ok fz o : caches fz o -> let e0 := at_ fz (o_es o) in
  exists o', caches (Some e0) o' /\ same o o' /\ unsigned_ o = (sparse_unsigned e0, o').
Proof.
  intros C e0. unfold unsigned_. destruct (o_unsigned o) as [s|] eqn:ES.
  - destruct fz as [e|]; [|destruct C as (_ & _ & S & _); congruence]. cbn [at_] in e0. subst e0. pose proof C as (_ & _ & _ & CU & _). rewrite (CU s ES).
    exists o. split; [exact C|]. split; [apply same_refl|reflexivity].
  - destruct (signed_ok fz o C) as (o' & C' & S & M). fold e0 in C', M. assert (SU : sparse_unsigned e0 = (s <- sparse_signed e0 ;; Ok (mkCoo (c_size s) (map (fun e => (fst e, true)) (c_ent s))))) by reflexivity.
    destruct (sparse_signed e0) as [s0|e] eqn:E0; cbn [bind] in SU; rewrite SU.
    + destruct M as (s & -> & LK). cbv zeta. rewrite (unsigned_like s s0 LK). eexists. split; [|split; [|reflexivity]]; [|exact S].
      destruct C' as (A1 & A2 & A3 & A4 & A5). cbn. repeat split; auto. intros s1 H1. injection H1 as <-. exact SU.
    + rewrite M. exists o'. auto.
Qed.
Lemma csr_ok fz o : caches fz o -> let e0 := at_ fz (o_es o) in
  exists o', caches (Some e0) o' /\ same o o' /\
  match sparse_signed e0 with Err e => csr_ o = (Err e, o') | Ok s0 => exists s, csr_ o = (Ok s, o') /\ like s s0 end.
Proof.
  intros C e0. unfold csr_. destruct (o_csr o) as [s|] eqn:ES.
  - destruct fz as [e|]; [|destruct C as (_ & _ & _ & S); congruence]. cbn [at_] in e0. subst e0. pose proof C as (_ & _ & _ & _ & CS). destruct (CS s ES) as (s0 & E0 & LK).
    exists o. split; [exact C|]. split; [apply same_refl|]. rewrite E0. exists s. auto.
  - destruct (signed_ok fz o C) as (o' & C' & S & M). fold e0 in C', M. destruct (sparse_signed e0) as [s0|e] eqn:E0.
    + destruct M as (s & -> & LK). eexists. split; [|split; [|exists s; split; [reflexivity|exact LK]]]; [|exact S].
      destruct C' as (A1 & A2 & A3 & A4 & A5). cbn. repeat split; auto. intros s1 H1. injection H1 as <-. exists s0. auto.
    + rewrite M. exists o'. auto.
Qed.

(** ** The reads *)
Lemma roots_ok fz o : caches fz o -> exists o', roots_ o = (p_roots (at_ fz (o_es o)), o') /\ caches (Some (at_ fz (o_es o))) o' /\ same o o'.
Proof.
  intros C. destruct (unsigned_ok fz o C) as (o' & C' & S & E). exists o'. split; [|auto]. unfold roots_, abind. rewrite E. unfold p_roots, roots.
  destruct (sparse_unsigned (at_ fz (o_es o))); reflexivity.
Qed.
Lemma leaves_ok fz o : caches fz o -> exists o', leaves_ o = (p_leaves (at_ fz (o_es o)), o') /\ caches (Some (at_ fz (o_es o))) o' /\ same o o'.
Proof.
  intros C. destruct (unsigned_ok fz o C) as (o' & C' & S & E). exists o'. split; [|auto]. unfold leaves_, abind. rewrite E. unfold p_leaves, leaves.
  destruct (sparse_unsigned (at_ fz (o_es o))); reflexivity.
Qed.
Lemma matrix_ok_ fz o : caches fz o -> exists o', matrix_ add zero ofZ o = (p_matrix (at_ fz (o_es o)) (o_w o), o') /\ caches (Some (at_ fz (o_es o))) o' /\ same o o'.
Proof.
  intros C. unfold matrix_, p_matrix. destruct (o_w o) as [|x w] eqn:W.
  - destruct (unsigned_ok fz o C) as (o' & C' & S & E). exists o'. split; [|auto]. unfold abind. rewrite E. unfold matrix_int. destruct (sparse_unsigned (at_ fz (o_es o))); reflexivity.
  - destruct (signed_ok fz o C) as (o' & C' & S & M). exists o'. split; [|auto]. unfold abind, matrix_weighted. destruct (sparse_signed (at_ fz (o_es o))) as [s0|e]; [|rewrite M; reflexivity].
    destruct M as (s & -> & L1 & L2). unfold aret. rewrite L1, L2. reflexivity.
Qed.

Lemma first_from_none es v : first_from es v = None <-> existsb (fun b => b) (map (fun e => Z.eqb (fst e) v) es) = false.
Proof.
  induction es as [|e es IH]; cbn; [tauto|]. destruct (Z.eqb (fst e) v); cbn; [split; discriminate|]. rewrite <- IH. destruct (first_from es v); cbn; split; congruence.
Qed.
Lemma first_from_get es v i (row : list nat) : first_from es v = Some i -> length row = length es -> get (compress (map (fun e => Z.eqb (fst e) v) es) row) 0 = get row i.
Proof.
  revert i row. induction es as [|e es IH]; intros i row H L; [discriminate|]. destruct row as [|r row]; [discriminate|]. cbn in H |- *.
  destruct (Z.eqb (fst e) v); [injection H as <-; reflexivity|]. destruct (first_from es v) as [j|]; [|discriminate]. injection H as <-. rewrite (IH j row eq_refl); [reflexivity|]. cbn in L. congruence.
Qed.
Lemma first_from_lt es v i : first_from es v = Some i -> exists e, nth_error es i = Some e /\ fst e = v.
Proof.
  revert i. induction es as [|e es IH]; intros i H; [discriminate|]. cbn in H. destruct (Z.eqb_spec (fst e) v) as [E|E]; [injection H as <-; exists e; auto|].
  destruct (first_from es v) as [j|]; [|discriminate]. injection H as <-. apply IH. reflexivity.
Qed.
Lemma signed_rows es s0 : sparse_signed es = Ok s0 -> map fst (c_ent s0) = edge_relabel es.
Proof.
  unfold sparse_signed, to_sparse. destruct (edge_relabel es) as [|p rl] eqn:R; [discriminate|]. intros H. injection H as <-. cbn [c_ent].
  assert (G : forall (a : list (nat * nat)) (b : list bool), length b = length a -> map fst (combine a b) = a).
  { clear. induction a as [|x a IH]; intros [|y b] H; try discriminate; [reflexivity|]. cbn. rewrite IH; [reflexivity|]. cbn in H. congruence. }
  apply (G (p :: rl)). rewrite <- R. unfold edge_relabel. rewrite !map_length. reflexivity.
Qed.
(** vertex_descendants of a source depends on its label only. *)
Lemma descendants_from es v i e : first_from es v <> None -> nth_error es i = Some e -> fst e = v ->
  vertex_descendants es v = (s <- sparse_signed es ;; start <- get (map row_of (c_ent s)) i ;;
     idx <- bft_indices (c_size s) (csr_row s) start ;; Ok (map (fun r => existsb (Nat.eqb r) idx || Nat.eqb r start) (map row_of (c_ent s)))).
Proof.
  intros NF Hi Hv. unfold vertex_descendants. destruct (existsb (fun b => b) (map (fun e => Z.eqb (fst e) v) es)) eqn:X; [|apply first_from_none in X; contradiction]. cbn [negb].
  destruct (sparse_signed es) as [s|er] eqn:S; [|reflexivity]. cbn [bind]. destruct (first_from es v) as [j|] eqn:J; [|contradiction].
  assert (R : map row_of (c_ent s) = map fst (edge_relabel es)) by (rewrite row_of_fst, (signed_rows es s S); reflexivity).
  rewrite (first_from_get es v j _ J) by (rewrite R; unfold edge_relabel; rewrite !map_length; reflexivity).
  destruct (first_from_lt es v j J) as (e' & Ej & Vj).
  assert (G : forall k x, nth_error es k = Some x -> get (map row_of (c_ent s)) k = Ok (rank (np_unique (flat es)) (fst x))).
  { intros k x Hk. apply get_ok. rewrite R. unfold edge_relabel. rewrite map_map, nth_error_map', Hk. reflexivity. }
  rewrite (G j e' Ej), (G i e Hi), Vj, Hv. reflexivity.
Qed.
Lemma descendants_ok v fz o : caches fz o ->
  exists o', descendants_ v o = (mixed p_descendants p_ending (o_es o) (at_ fz (o_es o)) v, o') /\
    caches (match first_from (o_es o) v with None => fz | Some _ => Some (at_ fz (o_es o)) end) o' /\ same o o'.
Proof.
  intros C. unfold descendants_, mixed. destruct (first_from (o_es o) v) as [i|] eqn:FF.
  - destruct (existsb (fun b => b) (map (fun e => Z.eqb (fst e) v) (o_es o))) eqn:X; [|apply first_from_none in X; congruence]. cbn [negb].
    set (e0 := at_ fz (o_es o)). destruct (signed_ok fz o C) as (o1 & C1 & S1 & M). fold e0 in C1, M.
    assert (L0 : length e0 = length (o_es o)) by (destruct C1 as (L & _); destruct S1 as (E & _); congruence).
    destruct (first_from_lt _ _ _ FF) as (e & He & Hev). destruct (nth_error e0 i) as [ei|] eqn:Ei; [|apply nth_error_None in Ei; assert (i < length (o_es o)) by (apply nth_error_Some; congruence); lia].
    assert (NF : first_from e0 (fst ei) <> None).
    { intros H. apply first_from_none in H. assert (Y : existsb (fun b : bool => b) (map (fun e => Z.eqb (fst e) (fst ei)) e0) = true); [|congruence]. apply existsb_exists. exists true. split; [|reflexivity].
      apply in_map_iff. exists ei. split; [apply Z.eqb_refl | eapply nth_error_In; eauto]. }
    unfold p_descendants. rewrite (descendants_from e0 (fst ei) i ei NF Ei eq_refl). unfold abind at 1. destruct (sparse_signed e0) as [s0|er] eqn:S0; [|rewrite M; exists o1; auto].
    destruct M as (s & -> & LK). cbn [bind]. assert (RW : map row_of (c_ent s) = map row_of (c_ent s0)) by (rewrite !row_of_fst; destruct LK as (_ & ->); reflexivity). rewrite RW.
    assert (LR : length (map row_of (c_ent s0)) = length (o_es o)) by (rewrite row_of_fst, (signed_rows _ _ S0); unfold edge_relabel; rewrite !map_length; exact L0).
    rewrite (first_from_get _ _ _ _ FF LR). unfold abind at 1, aret at 1. destruct (get (map row_of (c_ent s0)) i) as [start|er]; [|exists o1; cbn; auto]. cbn [bind].
    unfold abind at 1. destruct (csr_ok (Some e0) o1 C1) as (o2 & C2 & S2 & M2). cbn [at_] in C2, M2. rewrite S0 in M2. destruct M2 as (c & -> & LC).
    unfold abind, aret. rewrite (bft_like c s0 start LC). exists o2. split; [|split; [exact C2 | destruct S1, S2; split; congruence]].
    destruct (bft_indices (c_size s0) (csr_row s0) start); reflexivity.
  - assert (X : existsb (fun b => b) (map (fun e => Z.eqb (fst e) v) (o_es o)) = false) by (apply first_from_none, FF). rewrite X. cbn [negb]. exists o. split; [reflexivity|]. split; [exact C | apply same_refl].
Qed.

Lemma results_frozen ops : forall fz o, caches fz o -> resultsR o ops = frozenR (o_es o) fz (o_w o) ops.
Proof.
  induction ops as [|op ops IH]; intros fz o C; [reflexivity|]. destruct op; cbn [results exec frozen].
  - unfold nodes_. cbv beta iota zeta. rewrite (IH fz o C). reflexivity.
  - destruct (roots_ok fz o C) as (o' & -> & C' & S1 & S2). rewrite (IH _ o' C'), S1, S2. reflexivity.
  - destruct (leaves_ok fz o C) as (o' & -> & C' & S1 & S2). rewrite (IH _ o' C'), S1, S2. reflexivity.
  - destruct (matrix_ok_ fz o C) as (o' & -> & C' & S1 & S2). rewrite (IH _ o' C'), S1, S2. reflexivity.
  - destruct (descendants_ok v fz o C) as (o' & -> & C' & S1 & S2). rewrite (IH _ o' C'), S1, S2. reflexivity.
  - rewrite (IH fz (mkO (set_nth (o_es o) p e) (o_w o) (o_relabel o) (o_signed o) (o_unsigned o) (o_csr o))); [reflexivity|].
    destruct fz as [e0|]; [|exact C]. destruct C as (L & C). split; [cbn; rewrite set_nth_length; exact L | exact C].
  - rewrite (IH fz (mkO (o_es o) w (o_relabel o) (o_signed o) (o_unsigned o) (o_csr o))); [reflexivity|]. destruct fz; exact C.
Qed.
Lemma mixed_same es v : mixed p_descendants p_ending es es v = p_descendants es v.
Proof.
  unfold mixed. destruct (first_from es v) as [i|] eqn:FF.
  - destruct (first_from_lt _ _ _ FF) as (e & -> & ->). reflexivity.
  - unfold p_descendants, vertex_descendants. assert (X := proj1 (first_from_none es v) FF). rewrite X. reflexivity.
Qed.
Lemma frozen_current ops : forall seen es fz w, (fz = None \/ (seen = true /\ fz = Some es)) -> settled seen ops = true -> frozenR es fz w ops = currentR es w ops.
Proof.
  induction ops as [|op ops IH]; intros seen es fz w D H; [reflexivity|]. assert (AT : at_ fz es = es) by (destruct D as [->|(_ & ->)]; reflexivity).
  destruct op; cbn [frozen current settled looks] in *; rewrite ?AT; rewrite ?orb_false_r, ?orb_true_r in H.
  - f_equal. apply (IH seen); auto.
  - f_equal. apply (IH true); auto.
  - f_equal. apply (IH true); auto.
  - f_equal. apply (IH true); auto.
  - rewrite mixed_same. f_equal. apply (IH true); auto. destruct (first_from es v); auto. destruct D as [->|(_ & ->)]; auto.
  - apply andb_prop in H as (H1 & H2). destruct seen; [discriminate|]. destruct D as [->|(D & _)]; [|discriminate]. apply (IH false); auto.
  - apply (IH seen); auto.
Qed.

(** Every history: nodes and weights are always up to date; roots, leaves, matrix and descendants use the connections at the
    first statement that needed them. *)
Theorem C156_frozen_partial : forall es w ops, resultsR (new_aobj es w) ops = frozenR es None w ops.
Proof. intros es w ops. apply (results_frozen ops None (new_aobj es w)). cbn. auto. Qed.
(** Histories without an assignment after such a statement: everything is up to date. *)
Theorem C156_settled_partial : forall es w ops, settled false ops = true -> resultsR (new_aobj es w) ops = currentR es w ops.
Proof. intros es w ops H. rewrite C156_frozen_partial. apply (frozen_current ops false); auto. Qed.
End PC.
Print Assumptions C156_frozen_partial.
Print Assumptions C156_settled_partial.

(** "The graph quantities reflect the current edges": false once they have been read. *)
Theorem C156_stale_refuted : exists es ops, let results := results Z.add 0%Z (fun z => z) (fun l => seq 0 (length l)) (new_aobj es []) ops in
  results = [Ok (VMask [true; false]); Ok (VMask [true; false]); Ok (VMask [false; true]); Ok (VMask [true; true])] /\
  current (p_nodes (F := Z) (fun l => seq 0 (length l))) p_roots p_leaves (p_matrix Z.add 0%Z (fun z => z)) p_descendants es [] ops
    = [Ok (VMask [true; false]); Ok (VMask [true; true]); Ok (VMask [true; true]); Ok (VMask [true; false])].
Proof.
  exists [(1, 2); (2, 3)]%Z, [Roots; Assign 0 (5, 6)%Z; Roots; Leaves; Descendants 5].
  split; vm_compute; reflexivity.
Qed.
Print Assumptions C156_stale_refuted.
Example C156_demo : settled (F := Z) false [Nodes; Assign 0 (5, 6)%Z; Roots; Weights [1]%Z; Matrix; Descendants 5] = true.
Proof. reflexivity. Qed.
