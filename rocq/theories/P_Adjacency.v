(** Properties C30-C35: AdjacencyList. *)
From Verif Require Import Prelude Dict Keys MaskTypes SpecArray SpecAdj Arrays ArraysProofs Composite SpecComposite CompositeProofs Adjacency AdjacencyProofs.

(** A small event: 0 -> -1 -> {-2, -3}, a doubled edge and a loop. *)
Definition tree : edges := [(0, -1); (-1, -2); (-1, -3); (-2, 4); (-2, 4); (-3, -3)]%Z.

(** * C30 *)

Theorem C30_nodes : forall argsort es, sorts argsort ->
  (forall v, vertex es v -> fits32 v /\ v <> (- 2 ^ 31)%Z) ->
  NoDup (nodes argsort es) /\ (forall v, In v (nodes argsort es) <-> vertex es v) /\
  StronglySorted (fun a b => (Z.abs a <= Z.abs b)%Z) (nodes argsort es).
Proof. exact nodes_spec. Qed.
Print Assumptions C30_nodes.

(** An argsort (insertion sort) exists; the hypotheses are met by [tree]. *)
Fixpoint ins_by (keys : list Z) (i : nat) (l : list nat) : list nat :=
  match l with [] => [i] | j :: r => if (nth i keys 0 <=? nth j keys 0)%Z then i :: j :: r else j :: ins_by keys i r end.
Definition isort (keys : list Z) : list nat := fold_right (ins_by keys) [] (seq 0 (length keys)).
Lemma ins_by_perm keys i l : Permutation (ins_by keys i l) (i :: l).
Proof.
  induction l as [|j l IH]; [reflexivity|]. cbn. destruct (_ <=? _)%Z; [reflexivity|].
  rewrite IH. apply perm_swap.
Qed.
Lemma ins_by_sorted keys i l : StronglySorted Z.le (map (fun i => nth i keys 0%Z) l) ->
  StronglySorted Z.le (map (fun i => nth i keys 0%Z) (ins_by keys i l)).
Proof.
  induction l as [|j l IH]; intros H; [repeat constructor|]. cbn [ins_by]. inversion H as [|? ? H1 H2]; subst.
  destruct (Z.leb_spec (nth i keys 0) (nth j keys 0))%Z.
  - cbn [map]. constructor; [exact H|]. constructor; [assumption|]. eapply Forall_impl; [|exact H2]. cbn; lia.
  - cbn [map]. constructor; [apply IH; exact H1|]. apply Forall_forall. intros x Hx. apply in_map_iff in Hx as (k & <- & Hk).
    eapply Permutation_in in Hk; [|apply ins_by_perm]. destruct Hk as [<-|Hk]; [lia|].
    rewrite Forall_forall in H2. apply H2, in_map_iff. exists k; auto.
Qed.
Example C30_argsort : sorts isort.
Proof.
  intros keys. unfold isort. generalize (seq 0 (length keys)) as l. intros l. split.
  - induction l as [|i l IH]; [reflexivity|]. cbn. rewrite ins_by_perm, IH. reflexivity.
  - induction l as [|i l IH]; [constructor|]. cbn. apply ins_by_sorted; exact IH.
Qed.
Example C30_case : nodes isort tree = [0; -1; -2; -3; 4]%Z.
Proof. reflexivity. Qed.

(** * C31 *)

Theorem C31_roots : forall es, es <> [] ->
  exists m, roots es = Ok m /\ length m = length es /\
  forall i a b, nth_error es i = Some (a, b) ->
    exists v, nth_error m i = Some v /\ (v = true <-> ~ exists w, In (w, a) es).
Proof. intros es H. destruct (roots_total es H) as (m & Hm). exists m. split; [exact Hm|]. exact (roots_spec es m Hm). Qed.
Print Assumptions C31_roots.

Theorem C31_leaves : forall es, es <> [] ->
  exists m, leaves es = Ok m /\ length m = length es /\
  forall i a b, nth_error es i = Some (a, b) ->
    exists v, nth_error m i = Some v /\ (v = true <-> ~ exists w, In (b, w) es).
Proof. intros es H. destruct (leaves_total es H) as (m & Hm). exists m. split; [exact Hm|]. exact (leaves_spec es m Hm). Qed.
Print Assumptions C31_leaves.

Theorem C31_empty : roots [] = Err ValueError /\ leaves [] = Err ValueError.
Proof. split; reflexivity. Qed.

Example C31_case : roots tree = Ok [true; false; false; false; false; false] /\
  leaves tree = Ok [false; false; false; true; true; false].
Proof. split; reflexivity. Qed.

(** * C32 *)

Theorem C32_weighted : forall {F} (add : F -> F -> F) (zero : F) es w, es <> [] -> length w = length es ->
  exists u m, ascending_vertices es u /\ matrix_weighted add zero es w = Ok m /\ square (length u) m /\
    forall i j a b, nth_error u i = Some a -> nth_error u j = Some b ->
      entry m i j = Some (total add zero (weights_between es w a b)).
Proof.
  intros F add zero es w H1 H2. destruct (matrix_weighted_ok add zero es w H1 H2) as (m & Hm & Sq & E).
  exists (uni es), m. split; [apply unique_vertices|]. auto.
Qed.
Print Assumptions C32_weighted.

Theorem C32_counts : forall es, es <> [] ->
  exists u m, ascending_vertices es u /\ matrix_int es = Ok m /\ square (length u) m /\
    forall i j a b, nth_error u i = Some a -> nth_error u j = Some b ->
      entry m i j = Some (Z.of_nat (count_occ edge_dec es (a, b))).
Proof.
  intros es H. rewrite matrix_int_weighted.
  destruct (matrix_weighted_ok Z.add 0%Z es (repeat 1%Z (length es)) H (repeat_length _ _)) as (m & Hm & Sq & E).
  exists (uni es), m. split; [apply unique_vertices|]. split; [exact Hm|]. split; [exact Sq|].
  intros i j a b Hi Hj. rewrite (E i j a b Hi Hj). destruct (ones_between es a b) as [O1 O2]. unfold total.
  rewrite fold_add_ones by exact O1. rewrite O2. reflexivity.
Qed.
Print Assumptions C32_counts.

Theorem C32_totals :
  (forall es m, matrix_int es = Ok m -> total Z.add 0%Z (concat m) = Z.of_nat (length es)) /\
  (forall F (add : F -> F -> F) (zero : F),
     (forall x y, add x y = add y x) -> (forall x y z, add x (add y z) = add (add x y) z) -> (forall x, add zero x = x) ->
     forall es w m, length w = length es -> matrix_weighted add zero es w = Ok m ->
       total add zero (concat m) = total add zero w).
Proof.
  split.
  - intros es m H. rewrite matrix_int_weighted in H.
    rewrite (matrix_weighted_total Z.add 0%Z Z.add_comm Z.add_assoc Z.add_0_l es _ m (repeat_length _ _) H).
    unfold total. rewrite fold_add_ones; [rewrite repeat_length; reflexivity|].
    apply Forall_forall. intros x Hx. apply repeat_spec in Hx. exact Hx.
  - intros F add zero C A Z es w m HL H. eapply matrix_weighted_total; eassumption.
Qed.
Print Assumptions C32_totals.

(** An instance shows the weighted matrix exactly when it carries weights. *)
Theorem C32_instance : forall {F} (add : F -> F -> F) (zero : F) ofZ (a : adjl F),
  (a_weights a = [] -> matrix add zero ofZ a = (m <- matrix_int (edges_of (a_data a)) ;; Ok (map (map ofZ) m))) /\
  (a_weights a <> [] -> matrix add zero ofZ a = matrix_weighted add zero (edges_of (a_data a)) (a_weights a)).
Proof.
  intros F add zero ofZ a. unfold matrix. split; intros H; [rewrite H; reflexivity|].
  destruct (a_weights a); [congruence | reflexivity].
Qed.
Print Assumptions C32_instance.

Example C32_case : matrix_int [(5, -7); (5, -7); (-7, 9)]%Z = Ok [[0;0;1];[2;0;0];[0;0;0]]%Z /\
  matrix_weighted Z.add 0%Z [(5, -7); (5, -7); (-7, 9)]%Z [10; 20; 30]%Z = Ok [[0;0;30];[30;0;0];[0;0;0]]%Z.
Proof. split; reflexivity. Qed.

(** * C33 *)

Theorem C33_round_trip : forall {F} (add : F -> F -> F) (zero : F) is_zero ofZ n (A : list (list F)),
  (forall x, is_zero x = true <-> x = zero) -> (forall x, add zero x = x) ->
  square n A -> 0 < n -> (Z.of_nat n <= 2 ^ 31)%Z -> (forall k, k < n -> ~ isolated zero A k) ->
  exists aw au,
    from_matrix is_zero zero A true false = Ok aw /\ matrix add zero ofZ aw = Ok A /\
    from_matrix is_zero zero A false false = Ok au /\
    matrix add zero ofZ au = Ok (map (map (fun x => if is_zero x then ofZ 0%Z else ofZ 1%Z)) A).
Proof.
  intros F add zero is_zero ofZ n A HZ H0 Sq Hpos Hn Hiso.
  destruct (roundtrip_general add zero is_zero ofZ HZ H0 n A Sq Hn) as (u & aw & au & mw & mu & S & Hu & Faw & Maw & Fau & Mau & Sw & Su & E).
  { exists 0. split; [lia | apply Hiso; lia]. }
  assert (Eu : u = seq 0 n) by (apply sorted_lt_seq; [exact S|]; intros k; rewrite Hu; split; [tauto | intros Hk; split; [exact Hk | apply Hiso; exact Hk]]).
  subst u. rewrite seq_length in *.
  assert (Ns : forall k, k < n -> nth_error (seq 0 n) k = Some k).
  { intros k Hk. rewrite (nth_error_nth' (seq 0 n) 0) by (rewrite seq_length; exact Hk). rewrite seq_nth by exact Hk. reflexivity. }
  exists aw, au. split; [exact Faw|]. split; [|split; [exact Fau|]].
  - rewrite Maw. f_equal. apply (square_ext n); [exact Sw | exact Sq |]. intros i j Hi Hj.
    destruct (entry_some n A i j Sq Hi Hj) as (x & Hx). rewrite Hx. apply (E i j i j x); auto.
  - rewrite Mau. f_equal. apply (square_ext n); [exact Su | |].
    + destruct Sq as [Q1 Q2]. split; [rewrite map_length; exact Q1|]. apply Forall_forall. intros r Hr.
      apply in_map_iff in Hr as (r' & <- & Hr'). rewrite map_length. rewrite Forall_forall in Q2. auto.
    + intros i j Hi Hj. destruct (entry_some n A i j Sq Hi Hj) as (x & Hx).
      destruct (E i j i j x (Ns i Hi) (Ns j Hj) Hx) as [_ E2]. rewrite E2. unfold entry in *. rewrite nth_error_map'.
      destruct (nth_error A i) as [r|]; [|discriminate]. cbn. rewrite nth_error_map', Hx. reflexivity.
Qed.
Print Assumptions C33_round_trip.

(** In general: rows and columns of isolated indices are deleted; an all-zero matrix has no vertices and .matrix raises. *)
Theorem C33_isolated_removed : forall {F} (add : F -> F -> F) (zero : F) is_zero ofZ n (A : list (list F)),
  (forall x, is_zero x = true <-> x = zero) -> (forall x, add zero x = x) ->
  square n A -> (Z.of_nat n <= 2 ^ 31)%Z ->
  ((exists k, k < n /\ ~ isolated zero A k) ->
    exists u aw au mw mu,
      StronglySorted lt u /\ (forall k, In k u <-> k < n /\ ~ isolated zero A k) /\
      from_matrix is_zero zero A true false = Ok aw /\ matrix add zero ofZ aw = Ok mw /\
      from_matrix is_zero zero A false false = Ok au /\ matrix add zero ofZ au = Ok mu /\
      square (length u) mw /\ square (length u) mu /\
      forall a b i j x, nth_error u a = Some i -> nth_error u b = Some j -> entry A i j = Some x ->
        entry mw a b = Some x /\ entry mu a b = Some (if is_zero x then ofZ 0%Z else ofZ 1%Z)) /\
  ((forall k, k < n -> isolated zero A k) -> forall w,
    exists a, from_matrix is_zero zero A w false = Ok a /\ matrix add zero ofZ a = Err ValueError).
Proof.
  intros F add zero is_zero ofZ n A HZ H0 Sq Hn. split.
  - apply roundtrip_general; assumption.
  - intros H w. apply (from_matrix_all_zero add zero is_zero ofZ HZ n); assumption.
Qed.
Print Assumptions C33_isolated_removed.

(** self_loop=True: every index is a vertex; the diagonal becomes 0 (weighted) / 1. *)
Theorem C33_self_loops : forall {F} (add : F -> F -> F) (zero : F) is_zero ofZ n (A : list (list F)),
  (forall x, is_zero x = true <-> x = zero) -> (forall x, add zero x = x) ->
  square n A -> (Z.of_nat n <= 2 ^ 31)%Z -> 0 < n ->
  exists aw au mw mu,
      from_matrix is_zero zero A true true = Ok aw /\ matrix add zero ofZ aw = Ok mw /\
      from_matrix is_zero zero A false true = Ok au /\ matrix add zero ofZ au = Ok mu /\
      square n mw /\ square n mu /\
      forall i j x, entry A i j = Some x ->
        entry mw i j = Some (if Nat.eqb i j then zero else x) /\
        entry mu i j = Some (if Nat.eqb i j then ofZ 1%Z else if is_zero x then ofZ 0%Z else ofZ 1%Z).
Proof. intros F add zero is_zero ofZ n A HZ H0 Sq Hn Hp. apply roundtrip_loops; assumption. Qed.
Print Assumptions C33_self_loops.

Definition sample : list (list Z) := [[0; 3; 0]; [0; 0; -2]; [0; 0; 7]]%Z.
Example C33_case : exists a, from_matrix (Z.eqb 0) 0%Z sample true false = Ok a /\ matrix Z.add 0%Z (fun z => z) a = Ok sample.
Proof. eexists. split; reflexivity. Qed.
Example C33_hyps : square 3 sample /\ forall k, k < 3 -> ~ isolated 0%Z sample k.
Proof.
  split; [split; [reflexivity | repeat constructor]|]. intros k Hk H.
  destruct k as [|[|[|k]]]; [| | |lia].
  - specialize (H 1 3%Z (or_introl eq_refl)). discriminate.
  - specialize (H 2 (-2)%Z (or_introl eq_refl)). discriminate.
  - specialize (H 2 7%Z (or_introl eq_refl)). discriminate.
Qed.
Example C33_isolated_case : exists a, from_matrix (Z.eqb 0) 0%Z [[0; 0; 5]; [0; 0; 0]; [0; 0; 0]]%Z true false = Ok a /\
  matrix Z.add 0%Z (fun z => z) a = Ok [[0; 5]; [0; 0]]%Z.
Proof. eexists. split; reflexivity. Qed.

(** * C34 *)

Theorem C34_compare_edge : forall x a b, pairs x -> fits32 a -> fits32 b ->
  exists m, adj_compare false x (OSeq [a; b]) = Ok (Vec m) /\ adj_compare true x (OSeq [a; b]) = Ok (Vec (map negb m)) /\
    length m = length (edges_of x) /\
    forall i e, nth_error (edges_of x) i = Some e -> exists v, nth_error m i = Some v /\ (v = true <-> e = (a, b)).
Proof.
  intros x a b Hx Ha Hb. exists (map (fun e => pair_eqb e (a, b)) (edges_of x)). unfold adj_compare.
  rewrite (wrap32_id a), (wrap32_id b) by assumption.
  rewrite !(bools_new (Vec _)) by (eexists; reflexivity). split; [|split; [|split]].
  - do 2 f_equal. apply map_ext. intros e. apply xorb_false_r.
  - do 2 f_equal. rewrite map_map. apply map_ext. intros e. apply xorb_true_r.
  - apply map_length.
  - intros i [p q] Hi. rewrite nth_error_map', Hi. cbn. eexists. split; [reflexivity|]. unfold pair_eqb. cbn.
    rewrite andb_true_iff, !Z.eqb_eq. split; [intros [-> ->]; reflexivity | intros E; injection E; auto].
Qed.
Print Assumptions C34_compare_edge.

Theorem C34_other_lengths : forall ne x l, length l <> 2 ->
  adj_compare ne x (OSeq l) = Err ValueError /\ adj_compare ne x ONdarray = Err ValueError.
Proof. intros ne x l H. split; [|reflexivity]. destruct l as [|a [|b [|c l]]]; try reflexivity. cbn in H. congruence. Qed.
Print Assumptions C34_other_lengths.

(** The records of a stored edge array are its rows. *)
Theorem C34_edges_are_rows : forall x, pairs x -> map (fun e => [fst e; snd e]) (edges_of x) = rows x.
Proof.
  intros x [->|(r & -> & H & _)]; [reflexivity|]. cbn. induction H as [|p r Hp H IH]; [reflexivity|].
  destruct p as [|a [|b [|]]]; try discriminate Hp. cbn. rewrite IH. reflexivity.
Qed.
Print Assumptions C34_edges_are_rows.

Example C34_case : adj_compare false (Mat 2 [[0; -1]; [-1; -2]; [0; -1]]%Z) (OSeq [0; -1]%Z) = Ok (Vec [true; false; true]).
Proof. reflexivity. Qed.

(** * C35 *)

Theorem C35_compare_lists_refuted : exists x y,
  pairs x /\ pairs y /\ nd_len x = nd_len y /\ adj_compare false x (OAdj y) = Err ValueError.
Proof.
  exists (Mat 2 [[0; -1]; [-1; -2]]%Z), (Mat 2 [[0; -1]; [-1; -3]]%Z).
  assert (P : forall c, fits32 c -> pairs (Mat 2 [[0; -1]; [-1; c]]%Z)).
  { intros c Hc. apply pairs_mat; repeat constructor; unfold fits32 in *; lia. }
  split; [apply P; unfold fits32; lia|]. split; [apply P; unfold fits32; lia|]. split; reflexivity.
Qed.
Print Assumptions C35_compare_lists_refuted.

(** In fact it never works for equal lengths, nor for any other lengths except 1 against 2. *)
Theorem C35_always_raises : forall ne x y, pairs x -> pairs y -> ~ (nd_len x = 1 /\ nd_len y = 2) ->
  adj_compare ne x (OAdj y) = Err ValueError.
Proof.
  intros ne x y Hx Hy Hn. unfold adj_compare. destruct (Nat.eqb_spec (nd_len y) 2) as [E|E]; [|reflexivity]. cbn [negb].
  pose proof (C34_edges_are_rows x Hx) as Rx. pose proof (C34_edges_are_rows y Hy) as Ry.
  assert (Lx : length (edges_of x) = nd_len x) by (rewrite (pairs_len x Hx), <- Rx, map_length; reflexivity).
  assert (Ly : length (edges_of y) = 2) by (rewrite <- E, (pairs_len y Hy), <- Ry, map_length; reflexivity).
  destruct Hy as [->|(r & -> & _)]; [discriminate E|]. rewrite Lx.
  destruct (edges_of (Mat 2 r)) as [|e1 [|e2 [|]]]; try discriminate Ly.
  unfold mask_new, converter, to_plain. cbn [bind nd_map map]. unfold check_shape.
  destruct (Nat.eqb_spec (nd_len x) 1) as [E1|E1]; [exfalso; apply Hn; auto|].
  cbn. destruct (nd_len x =? 1) eqn:E2; [apply Nat.eqb_eq in E2; congruence | reflexivity].
Qed.
Print Assumptions C35_always_raises.

(** What can be compared: elementwise against one edge (C34), or one edge against two, giving two elements. *)
Theorem C35_one_against_two_partial : forall ne e f g,
  fits32 (fst e) -> fits32 (snd e) ->
  adj_compare ne (Mat 2 [[fst e; snd e]]) (OAdj (Mat 2 [[fst f; snd f]; [fst g; snd g]])) =
  Ok (Vec [xorb (pair_eqb e f) ne; xorb (pair_eqb e g) ne]).
Proof. intros ne [a b] [c d] [x y] H1 H2. reflexivity. Qed.
Print Assumptions C35_one_against_two_partial.
