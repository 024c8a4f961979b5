(** Property theorems about the record-level protocols: C120-C130. *)
From Verif Require Import Prelude Dict Keys MaskTypes Mask SpecArray Arrays ArraysProofs P_Arrays Composite SpecComposite
  CompositeProofs ArrayOps P_ArrayOps SpecAdj Adjacency AdjacencyProofs P_Adjacency Records SpecRecords.

(** * C120 membership, counting, reversal *)

Lemma mapM_ok_map {A B} (f : A -> res B) (g : A -> B) l :
  (forall a, In a l -> f a = Ok (g a)) -> mapM f l = Ok (map g l).
Proof.
  induction l as [|a l IH]; intros H; [reflexivity|]. cbn [mapM map]. rewrite H by (left; reflexivity). cbn [bind].
  rewrite IH by (intros; apply H; right; assumption). reflexivity.
Qed.

(** [reversed] when [getitem] succeeds at each position. *)
Lemma reversed_ok {A V} (l : list A) (getitem : Z -> res V) (g : A -> V) :
  (forall i a, nth_error l i = Some a -> getitem (Z.of_nat i) = Ok (g a)) ->
  reversed (length l) getitem = Ok (map g (rev l)).
Proof.
  intros H. unfold reversed.
  assert (G : forall m, m <= length l ->
    mapM (fun i => getitem (Z.of_nat i)) (rev (seq 0 m)) = Ok (map g (rev (firstn m l)))).
  { induction m as [|m IH]; intros Hm; [reflexivity|].
    rewrite seq_S, rev_app_distr. cbn [rev app mapM].
    destruct (nth_error_in_range l m Hm) as (a & Ha). rewrite Nat.add_0_l, (H _ _ Ha). cbn [bind].
    rewrite IH by lia. cbn [bind]. do 2 f_equal.
    assert (E : firstn (S m) l = firstn m l ++ [a]).
    { clear -Ha. revert l Ha; induction m as [|m IH]; intros [|b l] Ha; cbn in Ha |- *; try discriminate.
      - injection Ha as ->. reflexivity.
      - f_equal. apply IH. exact Ha. }
    rewrite E, rev_app_distr. reflexivity. }
  specialize (G (length l) (le_n _)). rewrite firstn_all in G. exact G.
Qed.

Lemma to_nat_mod n i : i < n -> Z.to_nat (Z.of_nat i mod Z.of_nat n) = i.
Proof. intros H. rewrite Z.mod_small by lia. lia. Qed.

Lemma contains_In {E} (eqb : E -> E -> bool) l v :
  (forall a b, eqb a b = true <-> a = b) -> contains eqb l v = true <-> In v l.
Proof.
  intros H. unfold contains. rewrite existsb_exists. split.
  - intros (a & Ha & E1). apply H in E1 as ->. exact Ha.
  - intros Hv. exists v. split; [exact Hv | apply H; reflexivity].
Qed.

(** Flat integer classes: [v in arr], [arr.count(v)] and [reversed(arr)] are
    those of the list of stored codes; reversal gives one-particle arrays. *)
Theorem C120_codes : forall l v,
  (Forall fits32 l -> exists x items, pdg_new (Plain (Vec l)) = Ok x /\ iter_flat x = Ok items /\
     (contains Z.eqb items v = true <-> In v l) /\ count Z.eqb items v = count_occ Z.eq_dec l v /\
     reversed (nd_len x) (fun i => pdg_get x (KInt i)) = Ok (map (fun z => Vec [z]) (rev l))) /\
  (Forall fits16 l -> exists x items, status_new (Plain (Vec l)) = Ok x /\ helicity_new (Plain (Vec l)) = Ok x /\
     iter_flat x = Ok items /\
     (contains Z.eqb items v = true <-> In v l) /\ count Z.eqb items v = count_occ Z.eq_dec l v /\
     reversed (nd_len x) (fun i => status_get x (KInt i)) = Ok (map (fun z => Vec [z]) (rev l)) /\
     reversed (nd_len x) (fun i => helicity_get x (KInt i)) = Ok (map (fun z => Vec [z]) (rev l))).
Proof.
  intros l v.
  assert (C : count Z.eqb l v = count_occ Z.eq_dec l v).
  { unfold count. induction l as [|a l IH]; [reflexivity|]. cbn [filter count_occ].
    destruct (Z.eq_dec a v) as [->|D]; [rewrite Z.eqb_refl; cbn; congruence|].
    apply Z.eqb_neq in D. rewrite D. exact IH. }
  assert (I : forall i a, nth_error l i = Some a ->
    (- Z.of_nat (length l) <= Z.of_nat i < Z.of_nat (length l))%Z /\
    nth_error l (Z.to_nat (Z.of_nat i mod Z.of_nat (length l))) = Some a).
  { intros i a Ha. assert (i < length l) by (apply nth_error_Some; congruence).
    rewrite to_nat_mod by assumption. split; [lia | exact Ha]. }
  split; intros HF; exists (Vec l), l.
  - split; [apply (proj1 (C22_stored_exactly_when_fits l)); exact HF|]. split; [reflexivity|].
    split; [apply contains_In; apply Z.eqb_eq|]. split; [exact C|]. cbn [nd_len]. apply reversed_ok.
    intros i a Ha. destruct (I _ _ Ha) as [R1 R2]. destruct (C21_single_codes l _ R1) as (z & Hz & G & _).
    rewrite (G HF). congruence.
  - destruct (proj2 (C22_stored_exactly_when_fits l) HF) as [S1 S2].
    split; [exact S2|]. split; [exact S1|]. split; [reflexivity|].
    split; [apply contains_In; apply Z.eqb_eq|]. split; [exact C|]. cbn [nd_len].
    split; apply reversed_ok; intros i a Ha; destruct (I _ _ Ha) as [R1 R2];
      destruct (C21_single_codes l _ R1) as (z & Hz & _ & G); destruct (G HF) as [G1 G2]; congruence.
Qed.
Print Assumptions C120_codes.

(** Momenta, colour pairs and edges: a record is in the array exactly when one
    of the rows equals it field by field. *)
Definition eq4 {A} (eqb : A -> A -> bool) (p q : A * A * A * A) : bool :=
  let '(a, b, c, d) := p in let '(a', b', c', d') := q in eqb a a' && eqb b b' && eqb c c' && eqb d d'.

Theorem C120_momenta : forall {A} (eqb : A -> A -> bool) (l : list (A * A * A * A)) v,
  let row := fun '(x, y, z, e) => [x; y; z; e] in
  exists x items, pmu_new (Plain (Mat 4 (map row l))) = Ok x /\ ser_rows tuple4 x = Ok items /\ items = l /\
    (contains (eq4 eqb) items v = true <-> exists p, In p l /\ eq4 eqb p v = true) /\
    reversed (nd_len x) (fun i => pmu_get x (KInt i)) = Ok (map (fun p => Mat 4 [row p]) (rev l)).
Proof.
  intros A eqb l v row. exists (Mat 4 (map row l)), l.
  assert (L : Forall (fun r => length r = 4) (map row l)).
  { apply Forall_map. apply Forall_forall. intros [[[a b] c] d] _. reflexivity. }
  split; [apply pmu_new_rows; exact L|]. split.
  { unfold ser_rows. rewrite (mapM_ok_map _ (fun r => match tuple4 r with Ok p => p | Err _ => v end)).
    - f_equal. rewrite map_map. rewrite <- (map_id l) at 2. apply map_ext. intros [[[a b] c] d]. reflexivity.
    - intros r Hr. apply in_map_iff in Hr as ([[[a b] c] d] & <- & _). reflexivity. }
  split; [reflexivity|]. split; [apply existsb_exists|].
  cbn [nd_len]. rewrite map_length. apply reversed_ok. intros i p Hp.
  assert (Hi : i < length l) by (apply nth_error_Some; congruence).
  assert (R : (- Z.of_nat (length (map row l)) <= Z.of_nat i < Z.of_nat (length (map row l)))%Z)
    by (rewrite map_length; lia).
  destruct (C21_single_momentum (map row l) _ L R) as (q & Hq & G).
  rewrite map_length, to_nat_mod in Hq by exact Hi. rewrite nth_error_map', Hp in Hq. cbn in Hq.
  injection Hq as <-. exact G.
Qed.
Print Assumptions C120_momenta.

Theorem C120_edges : forall (l : list (Z * Z)) v,
  let row := fun '(a, b) => [a; b] in
  Forall (fun p => fits32 (fst p) /\ fits32 (snd p)) l ->
  exists x, adj_new (Plain (Mat 2 (map row l))) = Ok x /\ color_new (Plain (Mat 2 (map row l))) = Ok x /\
    ser_rows tuple2 x = Ok l /\
    (contains pair_eqb l v = true <-> In v l) /\
    reversed (nd_len x) (fun i => adj_get x (KInt i)) = Ok (map (fun p => Mat 2 [row p]) (rev l)).
Proof.
  intros l v row HF. exists (Mat 2 (map row l)).
  assert (L : Forall (fun r => length r = 2) (map row l)).
  { apply Forall_map. apply Forall_forall. intros [a b] _. reflexivity. }
  assert (L2 : Forall (Forall fits32) (map row l)).
  { apply Forall_map. eapply Forall_impl; [|exact HF]. intros [a b] [Ha Hb]. exact (Forall_cons a Ha (Forall_cons b Hb (Forall_nil _))). }
  destruct (C22_pairs_stored_exactly _ L L2) as [S1 S2].
  split; [exact S2|]. split; [exact S1|]. split.
  { unfold ser_rows. rewrite (mapM_ok_map _ (fun r => match tuple2 r with Ok p => p | Err _ => v end)).
    - f_equal. rewrite map_map. rewrite <- (map_id l) at 2. apply map_ext. intros [a b]. reflexivity.
    - intros r Hr. apply in_map_iff in Hr as ([a b] & <- & _). reflexivity. }
  split.
  { apply contains_In. intros [a b] [c d]. unfold pair_eqb. cbn. rewrite andb_true_iff, !Z.eqb_eq.
    split; [intros [-> ->]; reflexivity | intros E; injection E; auto]. }
  cbn [nd_len]. rewrite map_length. apply reversed_ok. intros i p Hp.
  assert (Hi : i < length l) by (apply nth_error_Some; congruence).
  assert (R : (- Z.of_nat (length (map row l)) <= Z.of_nat i < Z.of_nat (length (map row l)))%Z)
    by (rewrite map_length; lia).
  destruct (C21_single_edge (map row l) _ L L2 R) as (q & Hq & G).
  rewrite map_length, to_nat_mod in Hq by exact Hi. rewrite nth_error_map', Hp in Hq. cbn in Hq.
  injection Hq as <-. exact G.
Qed.
Print Assumptions C120_edges.

Example C120_case :
  contains Z.eqb [11; -11; 22; 11]%Z (-11)%Z = true /\ contains Z.eqb [11; -11; 22; 11]%Z 13%Z = false /\
  count Z.eqb [11; -11; 22; 11]%Z 11%Z = 2 /\
  reversed 3 (fun i => pdg_get (Vec [11; -11; 22]%Z) (KInt i)) = Ok [Vec [22]; Vec [-11]; Vec [11]]%Z.
Proof. repeat split. Qed.

(** * C121 index *)

(** Expectation: [arr.index(v)] is the first position of [v].  Refuted: *)
Theorem C121_index_refuted : exists l v i, Forall fits32 l /\ In v l /\
  pdg_index (Vec l) v 0 None = Ok i /\ ~ first_at l v 0 None i.
Proof.
  exists [21; 21; 5]%Z, 5%Z, 0%Z. split; [repeat constructor; unfold fits32; lia|].
  split; [cbn; auto|]. split; [reflexivity|]. intros (_ & _ & H & _). discriminate H.
Qed.
Print Assumptions C121_index_refuted.

(** Absent values are found too. *)
Theorem C121_absent_value_refuted : exists l v i, Forall fits32 l /\ ~ In v l /\
  pdg_index (Vec l) v 0 None = Ok i.
Proof.
  exists [21; 21; 5]%Z, 6%Z, 0%Z. split; [repeat constructor; unfold fits32; lia|].
  split; [cbn; intuition discriminate | reflexivity].
Qed.
Print Assumptions C121_absent_value_refuted.

(** The search returns its first position whatever the value; it fails only
    when the range is empty. *)
Definition returns_start (n : nat) (idx : Z -> option Z -> res Z) : Prop :=
  forall start stop, let i := start_at n start in
  ((i < Z.of_nat n)%Z /\ before_stop n stop i -> idx start stop = Ok i) /\
  (~ ((i < Z.of_nat n)%Z /\ before_stop n stop i) -> idx start stop = Err ValueError).

Lemma seq_index_start {V} n (getitem : Z -> res V) test :
  (forall i, (0 <= i < Z.of_nat n)%Z -> exists v, getitem i = Ok v /\ test v = Ok true) ->
  (forall i, (Z.of_nat n <= i)%Z -> getitem i = Err IndexError) ->
  returns_start n (seq_index n getitem test).
Proof.
  intros HG HE start stop i. unfold seq_index. fold (start_at n start). fold i. cbn [index_loop].
  assert (P : (0 <= i)%Z) by (unfold i, start_at; destruct (Z.ltb_spec start 0); lia).
  set (stop' := match stop with Some s => Some (if (s <? 0)%Z then (s + Z.of_nat n)%Z else s) | None => None end).
  assert (B : match stop' with Some s => (i <? s)%Z | None => true end = true <-> before_stop n stop i).
  { unfold stop', before_stop. destruct stop as [s|]; [apply Z.ltb_lt | tauto]. }
  destruct (match stop' with Some s => (i <? s)%Z | None => true end) eqn:E.
  - destruct (Z_lt_le_dec i (Z.of_nat n)) as [H|H].
    + destruct (HG i) as (v & G & T); [lia|]. rewrite G, T. cbn [bind]. split; [reflexivity|].
      intros N. exfalso. apply N. split; [exact H | apply B; reflexivity].
    + rewrite (HE i H). split; [intros [N _]; lia | reflexivity].
  - split; [|reflexivity]. intros [_ N]. apply B in N. discriminate N.
Qed.

Lemma norm_idx_out n i : (Z.of_nat n <= i)%Z -> norm_idx n i = Err IndexError.
Proof.
  intros H. unfold norm_idx. destruct (Z.ltb_spec i (Z.of_nat n)); [lia|]. rewrite andb_false_r. reflexivity.
Qed.

Theorem C121_index_partial : forall l v,
  (Forall fits32 l -> returns_start (length l) (pdg_index (Vec l) v)) /\
  (Forall fits16 l -> returns_start (length l) (status_index (Vec l) v) /\
                      returns_start (length l) (helicity_index (Vec l) v)).
Proof.
  intros l v. split; [intros HF | intros HF; split]; apply (seq_index_start (length l)).
  - intros i Hi. destruct (C21_single_codes l i) as (z & _ & G & _); [lia|]. exists (Vec [z]).
    split; [apply G, HF | reflexivity].
  - intros i Hi. unfold pdg_get, nd_get. rewrite norm_idx_out by exact Hi. reflexivity.
  - intros i Hi. destruct (C21_single_codes l i) as (z & _ & _ & G); [lia|]. exists (Vec [z]).
    split; [apply G, HF | reflexivity].
  - intros i Hi. unfold status_get, nd_get. rewrite norm_idx_out by exact Hi. reflexivity.
  - intros i Hi. destruct (C21_single_codes l i) as (z & _ & _ & G); [lia|]. exists (Vec [z]).
    split; [apply G, HF | reflexivity].
  - intros i Hi. unfold helicity_get, nd_get. rewrite norm_idx_out by exact Hi. reflexivity.
Qed.
Print Assumptions C121_index_partial.

Theorem C121_index_rows_partial : forall {A} (eqb : A -> A -> bool) (rows : list (list A)) (edges : list (list Z)) v p,
  Forall (fun r => length r = 4) rows -> length v = 4 ->
  Forall (fun r => length r = 2) edges -> Forall (Forall fits32) edges -> length p = 2 ->
  returns_start (length rows) (pmu_index eqb (Mat 4 rows) v) /\
  returns_start (length edges) (color_index (Mat 2 edges) p) /\
  returns_start (length edges) (adj_index (Mat 2 edges) p).
Proof.
  intros A eqb rows edges v p HL Hv HE H32 Hp. split; [|split].
  - apply (seq_index_start (length rows)).
    + intros i Hi. destruct (C21_single_momentum rows i HL) as (q & _ & G); [lia|]. exists (Mat 4 [q]).
      split; [exact G|]. unfold test_rec, rec_eq, eq_prep. rewrite Hv. reflexivity.
    + intros i Hi. unfold pmu_get, nd_get. rewrite norm_idx_out by exact Hi. reflexivity.
  - apply (seq_index_start (length edges)).
    + intros i Hi. destruct (C188_single_color_flat_partial edges i HE H32) as (q & Hq & G); [lia|]. exists (Vec q).
      split; [exact G|]. assert (Lq : length q = 2) by (eapply Forall_nth_error in HE; [exact HE | exact Hq]).
      destruct q as [|a [|b [|]]]; try discriminate Lq.
      unfold test_rec, rec_eq, eq_prep. rewrite Hp. reflexivity.
    + intros i Hi. unfold color_get, nd_get. rewrite norm_idx_out by exact Hi. reflexivity.
  - apply (seq_index_start (length edges)).
    + intros i Hi. destruct (C21_single_edge edges i HE H32) as (q & Hq & G); [lia|]. exists (Mat 2 [q]).
      split; [exact G|]. assert (Lq : length q = 2) by (eapply Forall_nth_error in HE; [exact HE | exact Hq]).
      destruct q as [|a [|b [|]]]; try discriminate Lq.
      destruct p as [|a' [|b' [|]]]; try discriminate Hp. reflexivity.
    + intros i Hi. unfold adj_get, nd_get. rewrite norm_idx_out by exact Hi. reflexivity.
Qed.
Print Assumptions C121_index_rows_partial.

(** On masks [index] always fails. *)
Theorem C121_mask_index_partial : forall l v start stop, mask_index (Vec l) v start stop = Err ValueError.
Proof.
  intros l v start stop. unfold mask_index, seq_index. cbn [index_loop nd_len].
  set (i := if (start <? 0)%Z then Z.max (Z.of_nat (length l) + start) 0 else start).
  destruct (match _ with Some s => (i <? s)%Z | None => true end); [|reflexivity].
  assert (P : (0 <= i)%Z) by (unfold i; destruct (Z.ltb_spec start 0); lia).
  destruct (Z_lt_le_dec i (Z.of_nat (length l))) as [H|H].
  - destruct (C21_single_mask l i) as (b & _ & G); [lia|]. rewrite G. reflexivity.
  - unfold maskarr_get, nd_get. rewrite norm_idx_out by exact H. reflexivity.
Qed.
Print Assumptions C121_mask_index_partial.

Example C121_case :
  pdg_index (Vec [21; 21; 5]%Z) 5 1 None = Ok 1%Z /\ pdg_index (Vec [21; 21; 5]%Z) 5 (-1) None = Ok 2%Z /\
  pdg_index (Vec [21; 21; 5]%Z) 5 0 (Some (-3)%Z) = Err ValueError /\ pdg_index (Vec [21]%Z) 21 1 None = Err ValueError /\
  mask_index (Vec [true; false]) true 0 None = Err ValueError.
Proof. repeat split. Qed.

(** * C122 tables *)

Lemma combine_app {A B} (h h' : list A) (r r' : list B) :
  length r = length h -> combine (h ++ h') (r ++ r') = combine h r ++ combine h' r'.
Proof.
  revert r; induction h as [|a h IH]; intros [|b r] H; cbn in H |- *; try discriminate; [reflexivity|].
  f_equal. apply IH. lia.
Qed.

(** One component of the table against the cells it should show. *)
Definition column_good {F} (n : nat) (o : option (list string * list (list (cell F))))
    (sp : nat -> list (string * cell F)) : Prop :=
  match o with
  | None => forall i, i < n -> sp i = []
  | Some (h, c) => length c = n /\
      forall i, i < n -> exists r, nth_error c i = Some r /\ length r = length h /\ combine h r = sp i
  end.

Definition kept {A} (os : list (option A)) : list A := flat_map (fun o => match o with Some c => [c] | None => [] end) os.

Lemma zip_good {F} n (os : list (option (list string * list (list (cell F))))) sps :
  Forall2 (column_good n) os sps -> 
  (kept os = [] -> forall i, i < n -> flat_map (fun sp => sp i) sps = []) /\
  (kept os <> [] -> length (zip_rows (map snd (kept os))) = n /\
    forall i, i < n -> exists r, nth_error (zip_rows (map snd (kept os))) i = Some r /\
      length r = length (flat_map fst (kept os)) /\ combine (flat_map fst (kept os)) r = flat_map (fun sp => sp i) sps).
Proof.
  induction 1 as [|o sp os sps G H IH]; [split; [reflexivity | contradiction]|].
  destruct o as [[h c]|]; cbn [kept flat_map app map snd fst]; fold (kept os).
  - split; [discriminate|]. intros _. destruct G as [Lc G]. destruct IH as [IH0 IH1].
    destruct (kept os) as [|[h1 c1] rest] eqn:K.
    + cbn [map flat_map zip_rows app]. split; [exact Lc|]. intros i Hi.
      destruct (G i Hi) as (r & R1 & R2 & R3). exists r. rewrite (IH0 eq_refl i Hi), !app_nil_r. auto.
    + destruct (IH1 ltac:(discriminate)) as [L1 IH]. rewrite <- K in *. clear IH0 IH1.
      change (zip_rows (c :: map snd (kept os))) with
        (match map snd (kept os) with [] => c | _ => map2 (@app _) c (zip_rows (map snd (kept os))) end).
      destruct (map snd (kept os)) as [|c2 rc] eqn:M; [rewrite K in M; discriminate M|]. rewrite <- M in *.
      split; [rewrite map2_length, Lc, L1; apply Nat.min_id|]. intros i Hi.
      destruct (G i Hi) as (r & R1 & R2 & R3). destruct (IH i Hi) as (q & Q1 & Q2 & Q3).
      exists (r ++ q). rewrite map2_nth, R1, Q1. split; [reflexivity|]. rewrite !app_length, R2, Q2. split; [reflexivity|].
      rewrite combine_app by exact R2. congruence.
  - destruct IH as [IH0 IH1]. split.
    + intros K i Hi. rewrite (G i Hi). apply (IH0 K i Hi).
    + intros K. destruct (IH1 K) as [L1 IH]. split; [exact L1|]. intros i Hi. rewrite (G i Hi). exact (IH i Hi).
Qed.

Lemma sized_cases {A} n (x : nd A) : sized n x -> (nd_len x = 0 /\ truthy x = false) \/ (nd_len x = n /\ 0 < n /\ truthy x = true).
Proof.
  intros H. unfold truthy. destruct (Nat.eqb_spec (nd_len x) 0) as [E|E]; [left; auto|]. right.
  destruct H; [congruence|]. split; [assumption|]. split; [lia | reflexivity].
Qed.

Lemma flat_good {A F} n h (f : A -> cell F) (x : nd A) : (exists l, x = Vec l) -> sized n x ->
  exists o, column_of x [h] (flat_cells f x) = Ok o /\ column_good n o (show1 h f x) /\ (o = None <-> nd_len x = 0).
Proof.
  intros (l & ->) HS. unfold column_of. destruct (sized_cases n _ HS) as [(E & ->)|(E & P & ->)].
  - exists None. split; [reflexivity|]. split; [|tauto]. intros i _. unfold show1. cbn in E |- *.
    destruct l; [|discriminate E]. cbn. destruct i; reflexivity.
  - exists (Some ([h], map (fun a => [f a]) l)). split; [reflexivity|]. cbn [nd_len] in E. split.
    + split; [rewrite map_length; exact E|]. intros i Hi. rewrite <- E in Hi.
      destruct (nth_error_in_range l i Hi) as (a & Ha). exists [f a]. rewrite nth_error_map', Ha.
      split; [reflexivity|]. split; [reflexivity|]. unfold show1. cbn [rows]. rewrite nth_error_map', Ha. reflexivity.
    + cbn [nd_len]. split; [discriminate | lia].
Qed.

Lemma name_good names nm z : NoDup (map fst names) -> In (z, nm z) names -> name_of names z = Ok (nm z).
Proof.
  intros ND HI. unfold name_of. 
  assert (FI : find (fun p : Z * string => Z.eqb (fst p) z) names = Some (z, nm z)); [|rewrite FI; reflexivity].
  induction names as [|[z1 s1] t IH]; [destruct HI|]. cbn [find fst].
  inversion ND as [|? ? N1 N2]; subst. destruct HI as [E|HI].
  - injection E as -> ->. rewrite Z.eqb_refl. reflexivity.
  - destruct (Z.eqb_spec z1 z) as [->|D]; [|auto]. exfalso. apply N1.
    change z with (fst (z, nm z)). apply in_map; exact HI.
Qed.

Lemma ser_rows4 {A} (rs : list (list A)) : Forall (fun r => length r = 4) rs ->
  exists l, ser_rows tuple4 (Mat 4 rs) = Ok l /\ rs = map (fun '(x, y, z, e) => [x; y; z; e]) l.
Proof.
  intros H. unfold ser_rows. induction H as [|r rs Hr H (l & E & IH)]; [exists []; auto|].
  destruct r as [|a [|b [|c [|d [|]]]]]; try discriminate Hr. exists ((a, b, c, d) :: l).
  cbn [mapM tuple4 bind]. rewrite E. cbn. split; [reflexivity | congruence].
Qed.
Lemma ser_rows2 (x : nd Z) : pairs x ->
  exists l, ser_rows tuple2 x = Ok l /\ rows x = map (fun '(a, b) => [a; b]) l.
Proof.
  intros [->|(rs & -> & H & _)]; [exists []; auto|]. unfold ser_rows. cbn [rows].
  induction H as [|r rs Hr H (l & E & IH)]; [exists []; auto|].
  destruct r as [|a [|b [|]]]; try discriminate Hr. exists ((a, b) :: l).
  cbn [mapM tuple2 bind]. rewrite E. cbn. split; [reflexivity | congruence].
Qed.

Lemma table_list_ok {F} names nm n (s : pset F) : aligned n s -> named names nm (p_pdg s) ->
  exists hs rs, table_list names s = Ok (hs, rs) /\
    (pset_bool s = false -> hs = [] /\ rs = [] /\ forall i, i < n -> show_row nm s i = []) /\
    (pset_bool s = true -> length rs = n /\ 
      forall i, i < n -> exists r, nth_error rs i = Some r /\ length r = length hs /\ combine hs r = show_row nm s i).
Proof.
  intros ((Hpdg & Spdg) & (Hpmu & Spmu) & (Hcol & Scol) & (Hhel & Shel) & (Hst & Sst) & (Hfin & Sfin)) (ND & HN).
  unfold table_list.
  (* pdg *)
  assert (E1 : exists o, column_of (p_pdg s) ["name"%string]
     (l <- iter_flat (p_pdg s) ;; ns <- pdg_names names l ;; Ok (map (fun m => [@CName F m]) ns)) = Ok o /\
     column_good n o (show1 "name" (fun z => CName (nm z)) (p_pdg s)) /\ (o = None <-> nd_len (p_pdg s) = 0)).
  { destruct Hpdg as (l & E & Hl). destruct (flat_good (F := F) n "name"%string (fun z => CName (nm z)) (p_pdg s)) as (o & Ho & R).
    { eauto. } { exact Spdg. }
    exists o. split; [|exact R]. rewrite <- Ho. unfold column_of. destruct (truthy (p_pdg s)); [|reflexivity].
    unfold flat_cells. rewrite E. cbn [iter_flat ser_vec bind].
    assert (P : pdg_names names l = Ok (map nm l)).
    { apply mapM_ok_map. intros z Hz. apply name_good; [exact ND|]. apply HN. rewrite E. cbn [rows].
      apply in_map_iff. exists z. auto. }
    rewrite P. cbn [bind]. rewrite map_map. reflexivity. }
  destruct E1 as (o1 & -> & G1 & N1). cbn [bind].
  assert (E2 : exists o, column_of (p_pmu s) ["px"; "py"; "pz"; "energy"]%string
     (l <- ser_rows tuple4 (p_pmu s) ;;
      Ok (map (fun '(x, y, z, e) => [CFloat x; CFloat y; CFloat z; CFloat e]) l)) = Ok o /\
     column_good n o (fun i => match nth_error (rows (p_pmu s)) i with
       | Some [x; y; z; e] => [("px", CFloat x); ("py", CFloat y); ("pz", CFloat z); ("energy", CFloat e)]%string
       | _ => [] end) /\ (o = None <-> nd_len (p_pmu s) = 0)).
  { destruct Hpmu as (rs & E & HL). destruct (ser_rows4 rs HL) as (l & Hl & ->). rewrite E in *.
    unfold column_of. destruct (sized_cases n _ Spmu) as [(L & ->)|(L & P & ->)].
    - exists None. split; [reflexivity|]. split; [|tauto]. intros i _. cbn [nd_len rows] in *.
      destruct l; [|discriminate L]. cbn. destruct i; reflexivity.
    - rewrite Hl. eexists. split; [reflexivity|]. cbn [nd_len rows] in *. rewrite map_length in L. split.
      + split; [rewrite map_length; exact L|]. intros i Hi. rewrite <- L in Hi.
        destruct (nth_error_in_range l i Hi) as ([[[x y] z] e] & Ha).
        rewrite !nth_error_map', Ha. cbn [option_map]. eexists. split; [reflexivity|]. split; reflexivity.
      + rewrite map_length. split; [discriminate | lia]. }
  destruct E2 as (o2 & -> & G2 & N2). cbn [bind].
  assert (E3 : exists o, column_of (p_color s) ["color"; "anticolor"]%string
     (l <- ser_rows tuple2 (p_color s) ;; Ok (map (fun '(a, b) => [@CInt F a; CInt b]) l)) = Ok o /\
     column_good n o (fun i => match nth_error (rows (p_color s)) i with
       | Some [a; b] => [("color", CInt a); ("anticolor", CInt b)]%string
       | _ => [] end) /\ (o = None <-> nd_len (p_color s) = 0)).
  { destruct (ser_rows2 _ Hcol) as (l & Hl & R). pose proof (pairs_len _ Hcol) as PL. rewrite R, map_length in PL.
    unfold column_of. destruct (sized_cases n _ Scol) as [(L & ->)|(L & P & ->)].
    - exists None. split; [reflexivity|]. split; [|tauto]. intros i _. rewrite R.
      destruct l; [|cbn in PL; lia]. cbn. destruct i; reflexivity.
    - rewrite Hl. eexists. split; [reflexivity|]. split.
      + split; [rewrite map_length; lia|]. intros i Hi. rewrite <- L, PL in Hi.
        destruct (nth_error_in_range l i Hi) as ([a b] & Ha).
        rewrite R, !nth_error_map', Ha. cbn [option_map]. eexists. split; [reflexivity|]. split; reflexivity.
      + split; [discriminate | lia]. }
  destruct E3 as (o3 & -> & G3 & N3). cbn [bind].
  destruct (flat_good (F := F) n "helicity"%string CInt (p_hel s)) as (o4 & -> & G4 & N4).
  { destruct Hhel as (l & E & _); eauto. } { exact Shel. } cbn [bind].
  destruct (flat_good (F := F) n "status"%string CInt (p_status s)) as (o5 & -> & G5 & N5).
  { destruct Hst as (l & E & _); eauto. } { exact Sst. } cbn [bind].
  destruct (flat_good (F := F) n "final"%string CBool (p_final s)) as (o6 & -> & G6 & N6).
  { destruct Hfin as (l & E); eauto. } { exact Sfin. } cbn [bind].
  pose proof (zip_good n _ _ (Forall2_cons _ _ G1 (Forall2_cons _ _ G2 (Forall2_cons _ _ G3 (Forall2_cons _ _ G4
     (Forall2_cons _ _ G5 (Forall2_cons _ _ G6 (Forall2_nil _)))))))) as [Z0 Z1].
  fold (kept [o1; o2; o3; o4; o5; o6]).
  assert (SR : forall i, flat_map (fun sp : nat -> list (string * cell F) => sp i)
      [show1 "name" (fun z => CName (nm z)) (p_pdg s);
       (fun i => match nth_error (rows (p_pmu s)) i with
       | Some [x; y; z; e] => [("px", CFloat x); ("py", CFloat y); ("pz", CFloat z); ("energy", CFloat e)]%string
       | _ => [] end);
       (fun i => match nth_error (rows (p_color s)) i with
       | Some [a; b] => [("color", CInt a); ("anticolor", CInt b)]%string
       | _ => [] end); show1 "helicity" CInt (p_hel s); show1 "status" CInt (p_status s); show1 "final" CBool (p_final s)]
      = show_row nm s i).
  { intros i. cbn [flat_map]. rewrite app_nil_r. reflexivity. }
  assert (K : kept [o1; o2; o3; o4; o5; o6] = [] <-> pset_bool s = false).
  { unfold pset_bool, truthy. rewrite !orb_false_iff, !negb_false_iff, !Nat.eqb_eq.
    rewrite <- N1, <- N2, <- N3, <- N4, <- N5, <- N6. unfold kept. cbn [flat_map].
    destruct o1, o2, o3, o4, o5, o6; cbn; (split; [first [discriminate | intros _; repeat split] | first [reflexivity | intros (((((Q1 & Q2) & Q3) & Q4) & Q5) & Q6); first [discriminate Q1 | discriminate Q2 | discriminate Q3 | discriminate Q4 | discriminate Q5 | discriminate Q6]]]). }
  exists (flat_map fst (kept [o1; o2; o3; o4; o5; o6])), (zip_rows (map snd (kept [o1; o2; o3; o4; o5; o6]))).
  split; [reflexivity|]. split.
  - intros B. apply K in B. rewrite B. split; [reflexivity|]. split; [reflexivity|]. intros i Hi. rewrite <- SR. apply (Z0 B i Hi).
  - intros B. destruct Z1 as [Z1 Z2]. { intros X. apply K in X. congruence. }
    split; [exact Z1|]. intros i Hi. destruct (Z2 i Hi) as (r & R1 & R2 & R3). exists r. rewrite <- SR. auto.
Qed.

Lemma nth_error_firstn_lt {A} k (l : list A) i : i < k -> nth_error (firstn k l) i = nth_error l i.
Proof.
  revert l i; induction k as [|k IH]; intros l i H; [lia|]. destruct l as [|a l]; [reflexivity|].
  destruct i as [|i]; [reflexivity|]. cbn. apply IH. lia.
Qed.

Lemma table_repr_ok {F} hs (rs : list (list (cell F))) n row :
  length rs = n -> (forall i, i < n -> exists r, nth_error rs i = Some r /\ length r = length hs /\ combine hs r = row i) ->
  tabulates (table_repr hs rs n) n row.
Proof.
  intros L H. unfold tabulates, table_repr. cbn [t_particles t_attributes t_rows t_headers].
  split; [reflexivity|]. split; [reflexivity|].
  destruct (Nat.ltb_spec 60 n) as [B|B]; [rewrite (proj2 (Nat.leb_gt n 60) B) | rewrite (proj2 (Nat.leb_le n 60) B)].
  - rewrite !app_length, !map_length, firstn_length. unfold take_tail. rewrite !skipn_length. cbn [length].
    split; [lia|].
    assert (D : forall i k, i < n -> nth_error (map (map Some) (firstn 5 rs) ++ [repeat None (length hs)] ++
        map (map Some) (skipn (length rs - 5 - 5) (skipn 5 rs))) k = option_map (map Some) (nth_error rs i) ->
        displays (mkT hs (map (map Some) (firstn 5 rs) ++ [repeat None (length hs)] ++
        map (map Some) (skipn (length rs - 5 - 5) (skipn 5 rs))) n (length hs)) k (row i)).
    { intros i k Hi E. destruct (H i Hi) as (r & R1 & R2 & R3). exists r. cbn [t_rows t_headers].
      rewrite E, R1. auto. }
    split; [|split].
    + intros i Hi. apply D; [lia|]. rewrite nth_error_app1 by (rewrite map_length, firstn_length; lia).
      rewrite nth_error_map'. f_equal. apply nth_error_firstn_lt. exact Hi.
    + rewrite nth_error_app2 by (rewrite map_length, firstn_length; lia). rewrite map_length, firstn_length, L.
      replace (5 - Nat.min 5 n) with 0 by lia. reflexivity.
    + intros j Hj. apply D; [lia|]. rewrite nth_error_app2 by (rewrite map_length, firstn_length; lia).
      rewrite map_length, firstn_length, L. replace (6 + j - Nat.min 5 n) with (S j) by lia. cbn [app nth_error].
      rewrite nth_error_map'. f_equal.
      assert (SK : forall A m (l : list A) k, nth_error (skipn m l) k = nth_error l (m + k)).
      { intros A m. induction m as [|m IH]; intros [|a l] k; try reflexivity; [destruct k; reflexivity | apply IH]. }
      rewrite !SK. f_equal. lia.
  - split; [rewrite map_length; exact L|]. intros i Hi. destruct (H i Hi) as (r & R1 & R2 & R3).
    exists r. cbn [t_rows t_headers]. rewrite nth_error_map', R1. auto.
Qed.

Lemma first_pos_sized n l : ~ Forall (fun m => m = 0) l -> Forall (fun m => m = 0 \/ m = n) l -> first_pos l = n.
Proof.
  intros N H. unfold first_pos. induction H as [|m l Hm H IH]; [exfalso; apply N; constructor|].
  cbn [find]. destruct (Nat.ltb_spec 0 m) as [P|P]; [destruct Hm; lia|]. apply IH. intros Z. apply N. constructor; [lia | exact Z].
Qed.

Lemma pset_len_aligned {F} n (s : pset F) : aligned n s -> pset_bool s = true -> pset_len s = n.
Proof.
  intros HA HB.
  destruct HA as ((_ & S1) & (_ & S2) & (_ & S3) & (_ & S4) & (_ & S5) & (_ & S6)).
  apply (first_pos_sized n); [|unfold sized in *; do 6 (apply Forall_cons; [assumption|]); constructor].
  unfold pset_bool, truthy in HB. intros Z. inversion Z as [|? ? Z1 Y1]; subst. inversion Y1 as [|? ? Z2 Y2]; subst.
  inversion Y2 as [|? ? Z3 Y3]; subst. inversion Y3 as [|? ? Z4 Y4]; subst. inversion Y4 as [|? ? Z5 Y5]; subst.
  inversion Y5 as [|? ? Z6 _]; subst. rewrite Z1, Z2, Z3, Z4, Z5, Z6 in HB. discriminate HB.
Qed.

(** [str(particles)] and the notebook table list every particle, one labelled
    cell per attribute present (above 60 particles: the first five and the last
    five), and state the number of particles and of columns. *)
Theorem C122_particle_table : forall {F} names nm n (s : pset F),
  aligned n s -> named names nm (p_pdg s) -> pset_bool s = true ->
  exists t, pset_table names s = Ok t /\ tabulates t n (show_row nm s).
Proof.
  intros F names nm n s HA HN HB. destruct (table_list_ok names nm n s HA HN) as (hs & rs & E & _ & H).
  destruct (H HB) as [L G]. unfold pset_table. rewrite E. cbn [bind fst snd]. eexists. split; [reflexivity|].
  rewrite (pset_len_aligned n s HA HB). apply table_repr_ok; assumption.
Qed.
Print Assumptions C122_particle_table.

(** [str(graph)]: the same rows, each with its edge. *)
Theorem C122_graph_table : forall {F} names nm n (g : graph F),
  aligned_g n g -> named names nm (p_pdg (g_part g)) -> pset_bool (g_part g) = true ->
  exists t, graph_table names g = Ok t /\
    tabulates t n (fun i => show_row nm (g_part g) i ++ show_edge (a_data (g_adj g)) i).
Proof.
  intros F names nm n g (HA & HP & HS) HN HB. destruct (table_list_ok names nm n _ HA HN) as (hs & rs & E & _ & H).
  destruct (H HB) as [L G]. unfold graph_table. rewrite E. cbn [bind fst snd].
  assert (GL : graph_len g = n).
  { unfold graph_len. apply first_pos_sized.
    - intros Z. inversion Z as [|? ? Z1 _]; subst. rewrite (pset_len_aligned _ _ HA HB) in Z1.
      unfold pset_bool, truthy in HB. destruct HA as ((_ & S1) & (_ & S2) & (_ & S3) & (_ & S4) & (_ & S5) & (_ & S6)).
      unfold sized in *. rewrite Z1 in *.
      assert (A : forall m, m = 0 \/ m = 0 -> m = 0) by (intros m [->| ->]; reflexivity).
      rewrite (A _ S1), (A _ S2), (A _ S3), (A _ S4), (A _ S5), (A _ S6) in HB. discriminate HB.
    - apply Forall_cons; [right; apply (pset_len_aligned _ _ HA HB)|]. apply Forall_cons; [exact HS | constructor]. }
  rewrite GL. destruct (ser_rows2 _ HP) as (es & Ee & Re). pose proof (pairs_len _ HP) as PL. rewrite Re, map_length in PL.
  destruct (sized_cases n _ HS) as [(Z & T)|(Z & P & T)]; rewrite T.
  - eexists. split; [reflexivity|]. apply table_repr_ok; [exact L|]. intros i Hi.
    destruct (G i Hi) as (r & R1 & R2 & R3). exists r. split; [exact R1|]. split; [exact R2|]. rewrite R3.
    unfold show_edge. rewrite Re. destruct es; [|cbn in PL; lia]. cbn. destruct i; rewrite app_nil_r; reflexivity.
  - rewrite Ee. cbn [bind]. eexists. split; [reflexivity|]. apply table_repr_ok.
    + rewrite map2_length, L. lia.
    + intros i Hi. destruct (G i Hi) as (r & R1 & R2 & R3).
      assert (Hi2 : i < length es) by lia. destruct (nth_error_in_range es i Hi2) as ([a b] & Ha).
      exists (r ++ [CInt a; CInt b]). rewrite map2_nth, R1, Ha. split; [reflexivity|]. rewrite !app_length, R2.
      split; [reflexivity|]. rewrite combine_app by exact R2. rewrite R3. f_equal.
      unfold show_edge. rewrite Re, nth_error_map', Ha. reflexivity.
Qed.
Print Assumptions C122_graph_table.

(** A code without a name in the PDG table: the table cannot be shown. *)
Theorem C122_unknown_code : forall {F} names (s : pset F) l z,
  p_pdg s = Vec l -> In z l -> ~ In z (map fst names) ->
  pset_table names s = Err KeyError /\ forall a, graph_table names (mkG s a) = Err KeyError.
Proof.
  intros F names s l z E Hz HN.
  assert (P : pdg_names names l = Err KeyError).
  { clear E. unfold pdg_names. induction l as [|y l IH]; [destruct Hz|]. cbn [mapM].
    unfold name_of at 1. destruct (find (fun p : Z * string => Z.eqb (fst p) y) names) as [[c m]|] eqn:Fi; [|reflexivity].
    cbn [bind]. destruct Hz as [->|Hz].
    - exfalso. apply find_some in Fi as [I1 I2]. cbn in I2. apply Z.eqb_eq in I2. subst c. apply HN.
      change z with (fst (z, m)). apply in_map. exact I1.
    - rewrite IH by exact Hz. reflexivity. }
  assert (T : table_list names s = Err KeyError).
  { unfold table_list, column_of. rewrite E. unfold truthy. cbn [nd_len iter_flat ser_vec bind].
    destruct l; [destruct Hz|]. cbn [length Nat.eqb negb]. unfold iter_flat, ser_vec. cbn [bind]. rewrite P. reflexivity. }
  unfold pset_table, graph_table. cbn [g_part]. rewrite T. split; reflexivity.
Qed.
Print Assumptions C122_unknown_code.

Definition demo_names : list (Z * string) := [(21, "g"); (11, "e-"); (-11, "e+")]%Z%string.
Definition demo_set : pset Z :=
  mkP (Vec [11; -11]%Z) (Mat 4 [[1; 2; 3; 4]; [5; 6; 7; 8]]%Z) (Vec []) (Vec []) (Vec [1; -1]%Z) (Vec [true; false]).
Definition demo_graph : graph Z := mkG demo_set (mkA (Mat 2 [[-1; 1]; [-1; 2]]%Z) []).

Example C122_hypotheses : aligned_g 2 demo_graph /\ pset_bool demo_set = true /\
  exists nm, named demo_names nm (p_pdg demo_set).
Proof.
  split; [|split; [reflexivity|]].
  - unfold aligned_g, aligned, sized, codes, momenta, pairs, bools, demo_graph, demo_set; cbn.
    repeat split; try (eexists; split; [reflexivity | repeat constructor; unfold fits32, fits16; lia]); auto; try (eexists; reflexivity).
    + right. eexists. split; [reflexivity|]. split; repeat constructor; unfold fits32; lia.
  - exists (fun z => if Z.eqb z 11 then "e-" else "e+")%string. split.
    + cbn. repeat constructor; cbn; intuition discriminate.
    + cbn. intros z [E|[E|[]]]; injection E as <-; cbn; auto.
Qed.
Example C122_case : graph_table demo_names demo_graph = Ok (mkT
  ["name"; "px"; "py"; "pz"; "energy"; "status"; "final"; "src"; "dst"]%string
  (map (map Some) [[CName "e-"; CFloat 1; CFloat 2; CFloat 3; CFloat 4; CInt 1; CBool true; CInt (-1); CInt 1];
                   [CName "e+"; CFloat 5; CFloat 6; CFloat 7; CFloat 8; CInt (-1); CBool false; CInt (-1); CInt 2]]%Z%string)
  2 9).
Proof. reflexivity. Qed.

(** * C123 the table of a graph without particle data *)

(** Expectation: the edges are listed.  Refuted: no row is shown although the
    last line counts them. *)
Theorem C123_edges_only_refuted : forall {F}, exists (g : graph F) t,
  aligned_g 2 g /\ graph_table [] g = Ok t /\ t_particles t = 2 /\ ~ tabulates t 2 (show_edge (a_data (g_adj g))).
Proof.
  intros F. exists (mkG empty_p (mkA (Mat 2 [[-1; 1]; [-1; 2]]%Z) [])). eexists.
  split; [|split; [reflexivity | split; [reflexivity|]]].
  - split; [apply empty_aligned|]. split; [|right; reflexivity]. right. eexists. split; [reflexivity|].
    split; repeat constructor; unfold fits32; lia.
  - intros (_ & _ & H & _). discriminate H.
Qed.
Print Assumptions C123_edges_only_refuted.

(** In general: the header "src", "dst" and the count are right, the rows are
    missing. *)
Theorem C123_edges_only_partial : forall {F} names n (g : graph F),
  g_part g = empty_p -> pairs (a_data (g_adj g)) -> nd_len (a_data (g_adj g)) = S n -> S n <= 60 ->
  graph_table names g = Ok (mkT ["src"; "dst"]%string [] (S n) 2).
Proof.
  intros F names n [p a] E HP L B. cbn [g_part g_adj] in *. subst p. unfold graph_table. cbn [g_part g_adj].
  change (@table_list F names empty_p) with (@Ok (list string * list (list (cell F))) ([], [])). cbn [bind fst snd].
  unfold truthy. rewrite L. cbn [Nat.eqb negb]. destruct (ser_rows2 _ HP) as (es & -> & _). cbn [bind].
  assert (GL : @graph_len F (mkG empty_p a) = S n) by (unfold graph_len, first_pos; cbn; rewrite L; reflexivity).
  rewrite GL. unfold table_repr. destruct (Nat.ltb_spec 60 (S n)); [lia|]. reflexivity.
Qed.
Print Assumptions C123_edges_only_partial.

(** * C124 Graphicle.from_event / from_numpy *)

(** [y] is what the class constructor makes of an optional value. *)
Definition made {A} (new : inp A -> res (nd A)) (default : nd A) (v : option (inp A)) (y : nd A) : Prop :=
  match v with Some x => new x = Ok y | None => y = default end.

Lemma optional_made {A} (new : inp A -> res (nd A)) d v y : optional new d v = Ok y <-> made new d v y.
Proof. destruct v; cbn; [tauto|]. split; [intros E; injection E; auto | intros ->; reflexivity]. Qed.

(** Which of the event's attributes each component is made from: the attribute
    of the same name; for the final-state mask, when the event has no
    attribute "final", the entry "final" of its masks. *)
Definition final_source {F} (e : event F) (v : option (inp bool)) : Prop :=
  match ev_final e with
  | Present w => v = w
  | Absent => match ev_masks e with
              | Some masks => exists m, v = Some m /\ dget "final"%string masks = Some m
              | None => v = None
              end
  end.

Theorem C124_from_event : forall {F} (e : event F) (g : graph F),
  from_event e = Ok g <->
  exists final, final_source e final /\
  made pdg_new (Vec []) (param (ev_pdg e)) (p_pdg (g_part g)) /\
  made pmu_new (Mat 4 []) (param (ev_pmu e)) (p_pmu (g_part g)) /\
  made color_new (Vec []) (param (ev_color e)) (p_color (g_part g)) /\
  made helicity_new (Vec []) (param (ev_helicity e)) (p_hel (g_part g)) /\
  made status_new (Vec []) (param (ev_status e)) (p_status (g_part g)) /\
  made mask_new (Vec []) final (p_final (g_part g)) /\
  made adj_new (Vec []) (param (ev_edges e)) (a_data (g_adj g)) /\ a_weights (g_adj g) = [].
Proof.
  intros F e g.
  assert (FS : forall v, final_param e = Ok v <-> final_source e v).
  { intros v. unfold final_param, final_source. destruct (ev_final e) as [|w].
    - destruct (ev_masks e) as [masks|].
      + destruct (dget "final"%string masks) as [m|]; split.
        * intros E; injection E as <-. eauto.
        * intros (m' & -> & E). injection E as ->. reflexivity.
        * discriminate.
        * intros (m' & _ & E). discriminate E.
      + cbn. split; [intros E; injection E; auto | intros ->; reflexivity].
    - cbn. split; [intros E; injection E; auto | intros ->; reflexivity]. }
  unfold from_event. split.
  - intros H. apply bind_ok in H as (fin & Hf & H). apply FS in Hf. exists fin. split; [exact Hf|].
    unfold graph_from_numpy, from_numpy in H. apply bind_ok in H as (p & Hp & H).
    apply bind_ok in Hp as (a & Ha & Hp). apply bind_ok in Hp as (b & Hb & Hp). apply bind_ok in Hp as (c & Hc & Hp).
    apply bind_ok in Hp as (d & Hd & Hp). apply bind_ok in Hp as (s & Hs & Hp). apply bind_ok in Hp as (f & Hff & Hp).
    injection Hp as <-. apply optional_made in Ha, Hb, Hc, Hd, Hs, Hff.
    destruct (param (ev_edges e)) as [es|] eqn:Ee.
    + apply bind_ok in H as (d' & Hd' & H). cbn [bind] in H. injection H as <-. cbn.
      do 7 (split; [assumption|]). reflexivity.
    + injection H as <-. cbn. do 6 (split; [assumption|]). split; reflexivity.
  - intros (fin & Hf & Ha & Hb & Hc & Hd & Hs & Hff & Hadj & HW). apply FS in Hf. rewrite Hf. cbn [bind].
    unfold graph_from_numpy, from_numpy. apply optional_made in Ha, Hb, Hc, Hd, Hs, Hff.
    rewrite Ha, Hb, Hc, Hd, Hs, Hff. cbn [bind]. destruct g as [[pp pm pc ph ps pf] [ad aw]]. cbn in *. subst aw.
    destruct (param (ev_edges e)) as [es|]; cbn in Hadj.
    + rewrite Hadj. reflexivity.
    + subst ad. reflexivity.
Qed.
Print Assumptions C124_from_event.

(** An event with masks but neither "final" attribute nor "final" mask fails. *)
Theorem C124_no_final_mask : forall {F} (e : event F) masks,
  ev_final e = Absent -> ev_masks e = Some masks -> dget "final"%string masks = None -> from_event e = Err KeyError.
Proof. intros F e masks H1 H2 H3. unfold from_event, final_param. rewrite H1, H2, H3. reflexivity. Qed.
Print Assumptions C124_no_final_mask.

(** Exporting the arrays of a graph and importing them again gives the graph
    back (unweighted); absent components may be omitted or given empty. *)
Definition offer {A} (x : nd A) (a : attr A) : Prop :=
  a = Present (Some (Plain x)) \/ (nd_len x = 0 /\ (a = Absent \/ a = Present None)).

Theorem C124_roundtrip : forall {F} n (g : graph F) (e : event F),
  aligned_g n g -> a_weights (g_adj g) = [] ->
  offer (p_pdg (g_part g)) (ev_pdg e) -> offer (p_pmu (g_part g)) (ev_pmu e) -> offer (p_color (g_part g)) (ev_color e) ->
  offer (p_hel (g_part g)) (ev_helicity e) -> offer (p_status (g_part g)) (ev_status e) ->
  (offer (p_final (g_part g)) (ev_final e) /\ ev_masks e = None \/
   ev_final e = Present (Some (Plain (p_final (g_part g)))) \/
   ev_final e = Absent /\ exists m, ev_masks e = Some m /\ dget "final"%string m = Some (Plain (p_final (g_part g)))) ->
  offer (a_data (g_adj g)) (ev_edges e) ->
  exists h, from_event e = Ok h /\ same_g g h /\ a_weights (g_adj h) = [].
Proof.
  intros F n g e (((H1 & _) & (H2 & _) & (H3 & _) & (H4 & _) & (H5 & _) & (H6 & _)) & H7 & _) HW O1 O2 O3 O4 O5 O6 O7.
  assert (M : forall A (new : inp A -> res (nd A)) d x a, offer x a -> new (Plain x) = Ok x -> rows d = [] ->
     (nd_len x = 0 -> rows x = []) -> exists y, made new d (param a) y /\ rows y = rows x).
  { intros A new d x a [->|(L & [->| ->])] HN HD HX; [exists x; split; [exact HN | reflexivity]| |];
      exists d; split; try reflexivity; rewrite HD, (HX L); reflexivity. }
  assert (Z : forall A (x : nd A), nd_len x = length (rows x) -> nd_len x = 0 -> rows x = []).
  { intros A x E L. rewrite E in L. destruct (rows x); [reflexivity | discriminate L]. }
  destruct (M _ pdg_new (Vec []) _ _ O1 (codes32_new _ H1) eq_refl (Z _ _ (codes_len _ _ H1))) as (y1 & Y1 & R1).
  destruct (M _ pmu_new (Mat 4 []) _ _ O2 (momenta_new _ H2) eq_refl (Z _ _ (momenta_len _ H2))) as (y2 & Y2 & R2).
  destruct (M _ color_new (Vec []) _ _ O3 (proj1 (pairs_new _ H3)) eq_refl (Z _ _ (pairs_len _ H3))) as (y3 & Y3 & R3).
  destruct (M _ helicity_new (Vec []) _ _ O4 (proj2 (codes16_new _ H4)) eq_refl (Z _ _ (codes_len _ _ H4))) as (y4 & Y4 & R4).
  destruct (M _ status_new (Vec []) _ _ O5 (proj1 (codes16_new _ H5)) eq_refl (Z _ _ (codes_len _ _ H5))) as (y5 & Y5 & R5).
  destruct (M _ adj_new (Vec []) _ _ O7 (proj2 (pairs_new _ H7)) eq_refl (Z _ _ (pairs_len _ H7))) as (y7 & Y7 & R7).
  assert (exists fin y6, final_source e fin /\ made mask_new (Vec []) fin y6 /\ rows y6 = rows (p_final (g_part g))) as (fin & y6 & S6 & Y6 & R6).
  { destruct O6 as [(O6 & ME)|[E6|(E6 & m & Em & Ef)]].
    - destruct (M _ mask_new (Vec []) _ _ O6 (bools_new _ H6) eq_refl (Z _ _ (bools_len _ H6))) as (y6 & Y6 & R6).
      exists (param (ev_final e)), y6. split; [|split; assumption]. unfold final_source. destruct (ev_final e); [|reflexivity].
      rewrite ME. reflexivity.
    - exists (Some (Plain (p_final (g_part g)))), (p_final (g_part g)). unfold final_source. rewrite E6.
      split; [reflexivity|]. split; [exact (bools_new _ H6) | reflexivity].
    - exists (Some (Plain (p_final (g_part g)))), (p_final (g_part g)). unfold final_source. rewrite E6, Em.
      split; [eauto|]. split; [exact (bools_new _ H6) | reflexivity]. }
  exists (mkG (mkP y1 y2 y3 y4 y5 y6) (mkA y7 [])). split.
  - apply C124_from_event. exists fin. cbn. do 8 (split; [assumption|]). reflexivity.
  - unfold same_g, same_p. cbn. rewrite R1, R2, R3, R4, R5, R6, R7. split; [split; [|reflexivity]; repeat split | reflexivity].
Qed.
Print Assumptions C124_roundtrip.

Example C124_case :
  from_event (mkEv (Present (Some (Plain (Vec [11; -11]%Z)))) (@Absent Z) Absent (Present None) Absent Absent
     (Present (Some (Struct ["dst"; "src"]%string [[1; -1]; [2; -1]]%Z)))
     (Some [("final"%string, Plain (Vec [true; true]))])) =
  Ok (mkG (mkP (Vec [11; -11]%Z) (Mat 4 []) (Vec []) (Vec []) (Vec []) (Vec [true; true])) (mkA (Mat 2 [[-1; 1]; [-1; 2]]%Z) [])).
Proof. reflexivity. Qed.

(** from_numpy: weights accompany edges; without edges they are dropped, and
    their number is not compared with that of the edges. *)
Theorem C124_weights : forall {F} pdg pmu color hel status final (d : inp Z) (w : list F) (g : graph F),
  (graph_from_numpy pdg pmu color hel status final (Some d) (Some (Plain (Vec w))) = Ok g ->
     a_weights (g_adj g) = w /\ adj_new d = Ok (a_data (g_adj g))) /\
  (graph_from_numpy pdg pmu color hel status final None (Some (Plain (Vec w))) = Ok g ->
     a_weights (g_adj g) = [] /\ a_data (g_adj g) = Vec []).
Proof.
  intros F pdg pmu color hel status final d w g. unfold graph_from_numpy. split; intros H;
    apply bind_ok in H as (p & _ & H).
  - apply bind_ok in H as (x & Hx & H).
    assert (W : weights_new (Plain (Vec w)) = Ok w).
    { unfold weights_new, converter, to_plain. cbn [bind]. rewrite nd_map_id. reflexivity. }
    rewrite W in H. cbn [bind] in H. injection H as <-. cbn. split; [reflexivity | exact Hx].
  - injection H as <-. split; reflexivity.
Qed.
Print Assumptions C124_weights.

(** * C125 nested dictionaries of masks *)

(** Induction through the nested list. *)
Section SourceInd.
  Variable P : source -> Prop.
  Hypothesis H1 : forall m, P (SMask m).
  Hypothesis H2 : forall kids, Forall (fun p => P (snd p)) kids -> P (SDict kids).
  Hypothesis H3 : forall v, P (SRaw v).
  Hypothesis H4 : forall l, P (SIter l).
  Fixpoint source_ind' (s : source) : P s :=
    match s with
    | SMask m => H1 m
    | SDict kids => H2 kids ((fix go (l : list (string * source)) : Forall (fun p => P (snd p)) l :=
                      match l with [] => Forall_nil _ | p :: r => Forall_cons p (source_ind' (snd p)) (go r) end) kids)
    | SRaw v => H3 v
    | SIter l => H4 l
    end.
End SourceInd.

Lemma convert_kids (kids : list (string * source)) :
  Forall (fun p => exists m, convert (snd p) = Ok m /\ built (snd p) m) kids ->
  exists ms, mapM (fun p => m <- convert (snd p) ;; Ok (fst p, m)) kids = Ok ms /\
    Forall2 (fun p q => fst p = fst q /\ built (snd p) (snd q)) kids ms /\ map fst ms = map fst kids.
Proof.
  induction 1 as [|[k s] kids (m & E & B) H (ms & IE & IB & IK)]; [exists []; cbn; auto|].
  exists ((k, m) :: ms). cbn [mapM snd fst] in *. rewrite E. cbn [bind]. rewrite IE. cbn [bind].
  split; [reflexivity|]. split; [constructor; auto | cbn; congruence].
Qed.

Lemma convert_built s : proper s -> exists m, convert s = Ok m /\ built s m.
Proof.
  induction s as [m|kids IH|v|l] using source_ind'; intros H.
  - exists m. split; [reflexivity | constructor].
  - inversion H as [| |? ND HK]; subst.
    assert (IH' : Forall (fun p => exists m, convert (snd p) = Ok m /\ built (snd p) m) kids).
    { clear -IH HK. induction HK; inversion IH; subst; constructor; auto. }
    destruct (convert_kids kids IH') as (ms & E & B & K). exists (MGrp "and" ms). cbn [convert].
    rewrite E. cbn [bind]. rewrite dict_of_NoDup by (unfold dkeys; rewrite K; exact ND).
    split; [reflexivity | constructor; exact B].
  - inversion H; subst. eexists. split; [|constructor].
    cbn [convert]. unfold mask_of, mask_new, converter, to_plain. cbn [bind]. rewrite nd_map_id. reflexivity.
  - inversion H.
Qed.

(** A MaskGroup built from nested dictionaries of masks and arrays has the same
    names in the same order at every level and the given masks; dictionaries
    become groups aggregating with "and", the outermost one takes the given
    operation. *)
Theorem C125_nested_dict : forall agg kids,
  NoDup (map fst kids) -> Forall (fun p => proper (snd p)) kids ->
  exists ms, group_new agg kids = Ok (MGrp agg ms) /\
    Forall2 (fun p q => fst p = fst q /\ built (snd p) (snd q)) kids ms.
Proof.
  intros agg kids ND HK. destruct (convert_kids kids) as (ms & E & B & K).
  { eapply Forall_impl; [|exact HK]. intros p. apply convert_built. }
  exists ms. unfold group_new. rewrite E. cbn [bind]. rewrite dict_of_NoDup by (unfold dkeys; rewrite K; exact ND). auto.
Qed.
Print Assumptions C125_nested_dict.

(** Reading a nested entry by name leads to the entry given under that name. *)
Theorem C125_lookup : forall agg kids k s,
  NoDup (map fst kids) -> Forall (fun p => proper (snd p)) kids -> In (k, s) kids ->
  exists ms m, group_new agg kids = Ok (MGrp agg ms) /\ dget k ms = Some m /\ built s m.
Proof.
  intros agg kids k s ND HK HI. destruct (C125_nested_dict agg kids ND HK) as (ms & E & B).
  assert (exists m, dget k ms = Some m /\ built s m) as (m & D & Bm); [|exists ms, m; auto].
  clear E HK. induction B as [|[k1 s1] [k2 m2] kids ms [E B1] B IH]; [destruct HI|]. cbn [fst snd] in *. subst k2.
  inversion ND as [|? ? N1 N2]; subst. cbn [dget]. destruct HI as [E|HI].
  - injection E as -> ->. rewrite String.eqb_refl. eauto.
  - destruct (String.eqb_spec k k1) as [->|D]; [|auto]. exfalso. apply N1. change k1 with (fst (k1, s)). apply in_map. exact HI.
Qed.
Print Assumptions C125_lookup.

(** A later duplicate in a dictionary literal cannot occur; a malformed array
    anywhere inside makes the constructor fail. *)
Theorem C125_malformed : forall agg pre k c rows post,
  Forall (fun p => proper (snd p)) pre -> rows <> [] -> c <> 1 ->
  group_new agg (pre ++ (k, SRaw (Plain (Mat c rows))) :: post)%list = Err ValueError.
Proof.
  intros agg pre k c rows post HP HR HC. unfold group_new.
  assert (E : mapM (fun p => m <- convert (snd p) ;; Ok (fst p, m)) (pre ++ (k, SRaw (Plain (Mat c rows))) :: post)%list = Err ValueError);
    [|rewrite E; reflexivity].
  induction HP as [|[k1 s1] pre H1 HP IH]; cbn [app mapM snd fst].
  - cbn [convert]. unfold mask_of, mask_new, converter, to_plain. cbn [bind nd_map]. unfold check_shape.
    rewrite (proj2 (Nat.eqb_neq c 1) HC), map_length. destruct rows; [congruence|]. reflexivity.
  - destruct (convert_built s1 H1) as (m & -> & _). cbn [bind]. rewrite IH. reflexivity.
Qed.
Print Assumptions C125_malformed.

Definition demo_source : list (string * source) :=
  [("a", SRaw (Plain (Vec [true; false]))); ("b", SDict [("c", SMask (MGrp "or" [])); ("d", SRaw (Plain (Vec [false; false])))])]%string.
Example C125_case :
  NoDup (map fst demo_source) /\ Forall (fun p => proper (snd p)) demo_source /\
  group_new "or" demo_source =
    Ok (MGrp "or" [("a", MArr [true; false]); ("b", MGrp "and" [("c", MGrp "or" []); ("d", MArr [false; false])])]%string).
Proof.
  split; [|split; [|reflexivity]].
  - cbn. repeat constructor; cbn; intuition discriminate.
  - repeat constructor; cbn; intuition discriminate.
Qed.

(** * C126 iterators as masks *)

(** Expectation (annotation Iterable[bool]): an iterator of booleans becomes the
    mask of those booleans.  Refuted: it becomes a single True. *)
Theorem C126_iterator_refuted : exists items m, convert (SIter items) = Ok m /\ m <> MArr items.
Proof. exists [false; true; false], (MArr [true]). split; [reflexivity | discriminate]. Qed.
Print Assumptions C126_iterator_refuted.

Theorem C126_iterator_partial : forall items, convert (SIter items) = Ok (MArr [true]) /\
  convert (SRaw (Plain (Vec items))) = Ok (MArr items).
Proof. intros items. split; [reflexivity|]. cbn [convert]. unfold mask_of, mask_new, converter, to_plain. cbn [bind]. rewrite nd_map_id. reflexivity. Qed.
Print Assumptions C126_iterator_partial.

(** * C127 a mask combined with something that is not a mask *)

(** Expectation: & and | do not depend on the order of the operands.  Refuted: *)
Theorem C127_order_refuted : exists m o,
  mask_op andb m o = Err ValueError /\ exists r, mask_rop andb o m = Ok r.
Proof. exists (MArr [true; false]), (OBool true). split; [reflexivity|]. eexists. reflexivity. Qed.
Print Assumptions C127_order_refuted.

Lemma broadcast2_comm f x y : (forall a b, f a b = f b a) -> broadcast2 f x y = broadcast2 f y x.
Proof.
  intros C. unfold broadcast2. rewrite (Nat.eqb_sym (length y)).
  assert (M : forall x y, map2 f x y = map2 f y x).
  { clear x y. induction x as [|a x IH]; intros [|b y]; cbn; auto. rewrite C, IH. reflexivity. }
  destruct (Nat.eqb (length x) (length y)); [rewrite M; reflexivity|].
  destruct x as [|a [|a' x]], y as [|b [|b' y]]; try reflexivity; apply (f_equal Ok);
    try (apply map_ext; intros z; apply C). cbn. rewrite C. reflexivity.
Qed.

(** Two MaskArrays, or a MaskArray and a numpy vector: the order does not
    matter.  A Python bool or list is refused on the right, and combined
    elementwise on the left. *)
Theorem C127_order_partial : forall (f : bool -> bool -> bool) x y (b : bool),
  (forall a c, f a c = f c a) ->
  mask_op f (MArr x) (OMask (MArr y)) = mask_op f (MArr y) (OMask (MArr x)) /\
  mask_op f (MArr x) (ONumpy y) = mask_rop f (ONumpy y) (MArr x) /\
  mask_op f (MArr x) (OBool b) = Err ValueError /\ mask_op f (MArr x) (OList y) = Err ValueError /\
  mask_rop f (OBool b) (MArr x) = Ok (MArr (map (f b) x)) /\
  mask_rop f (OList y) (MArr x) = mask_op f (MArr y) (ONumpy x).
Proof.
  intros f x y b C. cbn [mask_op mask_rop data bind]. rewrite (broadcast2_comm f x y C).
  repeat split.
Qed.
Print Assumptions C127_order_partial.

(** A MaskGroup is refused on both sides of a bool or list. *)
Theorem C127_group_partial : forall f agg kids b l,
  mask_op f (MGrp agg kids) (OBool b) = Err ValueError /\ mask_op f (MGrp agg kids) (OList l) = Err ValueError /\
  mask_rop f (OBool b) (MGrp agg kids) = Err TypeError /\ mask_rop f (OList l) (MGrp agg kids) = Err TypeError.
Proof. intros. repeat split. Qed.
Print Assumptions C127_group_partial.

(** These operators are the ones of C01 on masks. *)
Theorem C127_is_C01_partial : forall m1 m2,
  mask_op andb m1 (OMask m2) = mask_and m1 m2 /\ mask_op orb m1 (OMask m2) = mask_or m1 m2.
Proof. intros. split; reflexivity. Qed.
Print Assumptions C127_is_C01_partial.

(** * C128 in-place operators *)

Lemma nth_error_set_nth {A} (h : list A) r x i :
  r < length h -> nth_error (set_nth h r x) i = if Nat.eqb i r then Some x else nth_error h i.
Proof.
  revert r i; induction h as [|a h IH]; intros [|r] [|i] H; cbn in H |- *; try lia; try reflexivity.
  apply IH. lia.
Qed.

(** [x op= y] for arrays of one class and shape: the name is rebound to an array
    holding the elementwise result in the SAME buffer, so every holder of the
    buffer sees it; every other buffer is unchanged.  [x op y] gives the same
    elements in a new buffer and changes nothing. *)
Definition inplace_ok (iop : nd Z -> operand Z -> nd Z * res (nd Z)) (bop : nd Z -> operand Z -> res (uout Z Z))
    (val : Z -> Z -> Z) : Prop :=
  forall (h : list (nd Z)) r x y, nth_error h r = Some (Vec x) -> length x = length y ->
  exists z, length z = length x /\
    (forall i a b, nth_error x i = Some a -> nth_error y i = Some b -> nth_error z i = Some (val a b)) /\
    (exists h', iop_heap iop h r (OArr (Vec y)) = (h', Ok r) /\ length h' = length h /\
       forall i, nth_error h' i = if Nat.eqb i r then Some (Vec z) else nth_error h i) /\
    bop_heap bop h r (OArr (Vec y)) = ((h ++ [Vec z])%list, Ok (length h)).

Lemma set_nth_length' {A} (h : list A) r x : length (set_nth h r x) = length h.
Proof. revert r; induction h as [|a h IH]; intros [|r]; cbn; auto. Qed.

Lemma inplace_flat w (new onew : nd Z -> res (nd Z)) f :
  (w = wrap32 \/ w = wrap16) -> (forall r, new r = converter w 1 (Plain r)) ->
  inplace_ok (iop (fun a b => w (f a b)) new onew) (ufunc_arith (fun a b => w (f a b)) new onew) (fun a b => w (f a b)).
Proof.
  intros HW HN h r x y Hr L. exists (map2 (fun a b => w (f a b)) x y).
  split; [rewrite map2_length, L; apply Nat.min_id|].
  split; [intros i a b Ha Hb; rewrite map2_nth, Ha, Hb; reflexivity|].
  assert (N : new (Vec (map2 (fun a b => w (f a b)) x y)) = Ok (Vec (map2 (fun a b => w (f a b)) x y))).
  { rewrite HN, <- (map2_idem w f x y). apply flat_new_idem. exact HW. }
  assert (HL : r < length h) by (apply nth_error_Some; congruence).
  assert (SS : same_shape (Vec x) (Vec (map2 (fun a b => w (f a b)) x y)) = true).
  { cbn. rewrite map2_length, L, Nat.min_id. apply Nat.eqb_refl. }
  split.
  - eexists. unfold iop_heap. rewrite Hr. unfold iop, nd_bin. rewrite bc_same by exact L. cbn [bind].
    rewrite SS, N. cbn [fst snd rmap]. split; [reflexivity|].
    split; [apply set_nth_length'|]. intros i. apply nth_error_set_nth. exact HL.
  - unfold bop_heap. rewrite Hr. unfold ufunc_arith, nd_bin. rewrite bc_same by exact L. cbn [bind]. rewrite N. reflexivity.
Qed.

Theorem C128_inplace_codes : forall f,
  inplace_ok (pdg_iop f) (pdg_arith f) (fun a b => wrap32 (f a b)) /\
  inplace_ok (status_iop f) (status_arith f) (fun a b => wrap16 (f a b)).
Proof. intros f. split; [apply (inplace_flat wrap32) | apply (inplace_flat wrap16)]; auto. Qed.
Print Assumptions C128_inplace_codes.

(** Momenta, and masks with &=, |=, ^= *)
Theorem C128_inplace_momenta : forall {A} (f : A -> A -> A) (h : list (nd A)) r x y,
  nth_error h r = Some (Mat 4 x) -> Forall (fun p => length p = 4) x -> Forall (fun p => length p = 4) y ->
  length x = length y ->
  exists h' z, iop_heap (pmu_iop f) h r (OArr (Mat 4 y)) = (h', Ok r) /\ length z = length x /\
    (forall i, nth_error h' i = if Nat.eqb i r then Some (Mat 4 z) else nth_error h i) /\
    (forall i p q, nth_error x i = Some p -> nth_error y i = Some q -> nth_error z i = Some (map2 f p q)) /\
    bop_heap (pmu_arith f) h r (OArr (Mat 4 y)) = ((h ++ [Mat 4 z])%list, Ok (length h)).
Proof.
  intros A f h r x y Hr HX HY L. assert (HL : r < length h) by (apply nth_error_Some; congruence).
  exists (set_nth h r (Mat 4 (map2 (map2 f) x y))), (map2 (map2 f) x y).
  assert (N : pmu_new (Plain (Mat 4 (map2 (map2 f) x y))) = Ok (Mat 4 (map2 (map2 f) x y))).
  { apply pmu_new_rows. apply map2_rows; assumption. }
  split.
  { unfold iop_heap. rewrite Hr. unfold pmu_iop, iop. rewrite nd_bin_mat by assumption.
    assert (SS : same_shape (Mat 4 x) (Mat 4 (map2 (map2 f) x y)) = true).
    { cbn. rewrite map2_length, L, Nat.min_id. apply Nat.eqb_refl. }
    rewrite SS, N. reflexivity. }
  split; [rewrite map2_length, L; apply Nat.min_id|].
  split; [intros i; apply nth_error_set_nth; exact HL|].
  split; [intros i p q Hp Hq; rewrite map2_nth, Hp, Hq; reflexivity|].
  unfold bop_heap. rewrite Hr. unfold pmu_arith, ufunc_arith. rewrite nd_bin_mat by assumption. cbn [bind]. rewrite N. reflexivity.
Qed.
Print Assumptions C128_inplace_momenta.

Theorem C128_inplace_masks : forall f (h : list (nd bool)) r x y,
  nth_error h r = Some (Vec x) -> length x = length y ->
  exists h' z, iop_heap (maskarr_iop f) h r (OArr (Vec y)) = (h', Ok r) /\ length z = length x /\
    (forall i, nth_error h' i = if Nat.eqb i r then Some (Vec z) else nth_error h i) /\
    (forall i a b, nth_error x i = Some a -> nth_error y i = Some b -> nth_error z i = Some (f a b)).
Proof.
  intros f h r x y Hr L. assert (HL : r < length h) by (apply nth_error_Some; congruence).
  exists (set_nth h r (Vec (map2 f x y))), (map2 f x y). split.
  { unfold iop_heap. rewrite Hr. unfold maskarr_iop, iop, nd_bin. rewrite bc_same by exact L. cbn [bind].
    assert (SS : same_shape (Vec x) (Vec (map2 f x y)) = true).
    { cbn. rewrite map2_length, L, Nat.min_id. apply Nat.eqb_refl. }
    rewrite SS. rewrite bools_new by (eexists; reflexivity). reflexivity. }
  split; [rewrite map2_length, L; apply Nat.min_id|].
  split; [intros i; apply nth_error_set_nth; exact HL|].
  intros i a b Ha Hb. rewrite map2_nth, Ha, Hb. reflexivity.
Qed.
Print Assumptions C128_inplace_masks.

Example C128_case :
  iop_heap (maskarr_iop andb) [Vec [true; true; false]; Vec [false; true; true]] 0 (OArr (Vec [false; true; true])) =
    ([Vec [false; true; false]; Vec [false; true; true]], Ok 0) /\
  iop_heap (pdg_iop Z.add) [Vec [1; 2]; Vec [7]]%Z 0 (ORaw (Sc 10%Z)) = ([Vec [11; 12]; Vec [7]]%Z, Ok 0).
Proof. split; reflexivity. Qed.

(** * C129 failed in-place operators *)

(** Expectation: an in-place operation that raises has changed nothing.
    Refuted for arrays of different classes: *)
Theorem C129_failed_inplace_refuted : exists h h' e,
  iop_heap (pdg_iop Z.add) h 0 (OOther (Vec [1; 2]%Z)) = (h', Err e) /\ h' <> h.
Proof. exists [Vec [10; 20]%Z], [Vec [11; 22]%Z], AttributeError. split; [reflexivity | discriminate]. Qed.
Print Assumptions C129_failed_inplace_refuted.

(** Arrays of one class (and numbers, sequences, ndarrays): nothing is written
    when the operation fails because the shapes do not match; in particular a
    longer right operand, or a two-dimensional one, is refused, although
    [x op y] would broadcast. *)
Theorem C129_failed_inplace_partial : forall f (h : list (nd Z)) r x y,
  nth_error h r = Some (Vec x) ->
  (length y <> length x -> length y <> 1 ->
     iop_heap (pdg_iop f) h r (OArr (Vec y)) = (h, Err ValueError) /\
     iop_heap (pdg_iop f) h r (ORaw (Vec y)) = (h, Err ValueError)) /\
  (forall c rows, iop_heap (pdg_iop f) h r (ORaw (Mat c rows)) = (h, Err ValueError)) /\
  (forall o e h', match o with OOther _ => False | _ => True end ->
     iop_heap (pdg_iop f) h r o = (h', Err e) -> h' = h).
Proof.
  intros f h r x y Hr. assert (HL : r < length h) by (apply nth_error_Some; congruence).
  assert (SN : forall v, nth_error h r = Some v -> set_nth h r v = h).
  { clear. intros v. revert r; induction h as [|a h IH]; intros [|r] E; cbn in *; try discriminate; [congruence|]. f_equal. auto. }
  split; [|split].
  - intros L1 L2.
    assert (E : pdg_iop f (Vec x) (OArr (Vec y)) = (Vec x, Err ValueError)).
    { unfold pdg_iop, iop, nd_bin. destruct (Nat.eq_dec (length x) 1) as [X1|X1].
      - unfold bc. destruct (Nat.eqb_spec (length x) (length y)); [congruence|].
        destruct x as [|a [|]]; try discriminate X1. cbn [bind same_shape]. rewrite map_length.
        destruct (Nat.eqb_spec (length [a]) (length y)); [congruence | reflexivity].
      - rewrite bc_err by congruence. reflexivity. }
    unfold iop_heap. rewrite Hr. change (pdg_iop f (Vec x) (ORaw (Vec y))) with (pdg_iop f (Vec x) (OArr (Vec y))).
    rewrite E. cbn [fst snd rmap]. rewrite (SN _ Hr). split; reflexivity.
  - intros c rows.
    assert (E : pdg_iop f (Vec x) (ORaw (Mat c rows)) = (Vec x, Err ValueError)).
    { unfold pdg_iop, iop, nd_bin.
      destruct (bdim (length x) c) as [cc|e] eqn:B; cbn [bind].
      - destruct (mapM _ rows) as [l|e] eqn:M; cbn [bind]; [reflexivity|].
        f_equal. f_equal. clear - M. induction rows as [|q rows IH]; cbn in M; [discriminate M|].
        unfold bc at 1 in M. destruct (Nat.eqb (length x) (length q)).
        + destruct (mapM _ rows) as [l2|e2]; cbn in M; [discriminate M | auto].
        + destruct x as [|a [|]], q as [|b [|]]; cbn in M; try congruence;
            destruct (mapM _ rows) as [l2|e2]; cbn in M; try discriminate M; auto.
      - unfold bdim in B. repeat destruct (Nat.eqb _ _); congruence. }
    unfold iop_heap. rewrite Hr, E. cbn [fst snd rmap]. rewrite (SN _ Hr). reflexivity.
  - intros o e h' HO H. unfold iop_heap in H. rewrite Hr in H. unfold pdg_iop, iop in H.
    destruct (nd_bin _ (Vec x) _) as [v|e'] eqn:B in H.
    + destruct (same_shape (Vec x) v) eqn:SS.
      * exfalso. destruct v as [a|l|c rows]; try discriminate SS.
        destruct o; try contradiction; cbn in H; discriminate H.
      * cbn [fst snd rmap] in H. rewrite (SN _ Hr) in H. injection H as <- _. reflexivity.
    + cbn [fst snd rmap] in H. rewrite (SN _ Hr) in H. injection H as <- _. reflexivity.
Qed.
Print Assumptions C129_failed_inplace_partial.

(** * C130 equality of composites *)

(** Expectation: [s == t] tells whether the two sets hold the same records.
    Refuted in both directions. *)
Definition full (pdg : Z) (x : Z) : pset Z :=
  mkP (Vec [pdg]) (Mat 4 [[x; x; x; x]]) (Mat 2 [[0; 0]]%Z) (Vec [0%Z]) (Vec [1%Z]) (Vec [true]).

Lemma full_aligned pdg x : fits32 pdg -> aligned 1 (full pdg x).
Proof.
  intros H. unfold aligned, sized, codes, momenta, pairs, bools, full; cbn.
  repeat split; auto; try (right; reflexivity).
  - eexists. split; [reflexivity|]. constructor; [exact H | constructor].
  - eexists. split; [reflexivity | repeat constructor].
  - right. eexists. split; [reflexivity|]. split; repeat constructor; unfold fits32; lia.
  - eexists. split; [reflexivity | repeat constructor; unfold fits16; lia].
  - eexists. split; [reflexivity | repeat constructor; unfold fits16; lia].
  - eexists. reflexivity.
Qed.

Theorem C130_different_sets_equal_refuted : exists s t : pset Z,
  aligned 1 s /\ aligned 1 t /\ ~ same_p s t /\ pset_eq Z.eqb s t = Ok true.
Proof.
  exists (full 11 1), (full (-13) 2). split; [apply full_aligned; unfold fits32; lia|].
  split; [apply full_aligned; unfold fits32; lia|]. split; [|reflexivity]. intros (E & _). discriminate E.
Qed.
Print Assumptions C130_different_sets_equal_refuted.

Theorem C130_same_sets_unequal_refuted : exists s t : pset Z,
  same_p s t /\ pset_copy s = Ok t /\ pset_eq Z.eqb s t = Ok false.
Proof.
  exists (mkP (Vec [11]%Z) (Mat 4 []) (Vec []) (Vec []) (Vec []) (Vec [])). eexists.
  split; [|split; reflexivity]. repeat split; reflexivity.
Qed.
Print Assumptions C130_same_sets_unequal_refuted.

(** What it does tell, for sets of [n] records: whether all six components are
    present in both — whatever they hold. *)
Definition complete {F} (s : pset F) : Prop :=
  nd_len (p_pdg s) <> 0 /\ nd_len (p_pmu s) <> 0 /\ nd_len (p_color s) <> 0 /\ nd_len (p_hel s) <> 0 /\
  nd_len (p_status s) <> 0 /\ nd_len (p_final s) <> 0.
(** The two sets have the same components. *)
Definition same_layout {F} (s t : pset F) : Prop :=
  nd_len (p_pdg s) = nd_len (p_pdg t) /\ nd_len (p_pmu s) = nd_len (p_pmu t) /\ nd_len (p_color s) = nd_len (p_color t) /\
  nd_len (p_hel s) = nd_len (p_hel t) /\ nd_len (p_status s) = nd_len (p_status t) /\ nd_len (p_final s) = nd_len (p_final t).

Lemma and_then_vec (m : list bool) k : and_then (Ok (Vec m)) k = if Nat.eqb (length m) 0 then Ok false else k.
Proof. unfold and_then, truthy. cbn. destruct (Nat.eqb (length m) 0); reflexivity. Qed.

Lemma flat_eq_len x y : length x = length y -> exists m, flat_eq (Vec x) (OArr (Vec y)) = Ok (Vec m) /\ length m = length x.
Proof.
  intros L. unfold flat_eq, nd_bin. rewrite bc_same by exact L. cbn [bind]. rewrite bools_new by (eexists; reflexivity).
  eexists. split; [reflexivity|]. rewrite map2_length, L. apply Nat.min_id.
Qed.
Lemma rec_eq_len {A} (eqb : A -> A -> bool) c x y : length x = length y ->
  exists m, rec_eq eqb c x (RSame y) = Ok (Vec m) /\ length m = length x.
Proof.
  intros L. unfold rec_eq, eq_prep, nd_bin. cbn [bind]. rewrite bc_same by exact L. cbn [bind].
  rewrite bools_new by (eexists; reflexivity). eexists. split; [reflexivity|]. rewrite map2_length, L. apply Nat.min_id.
Qed.
Lemma records_len4 {F} (x : nd F) : momenta x -> length (records 4 x) = nd_len x.
Proof. intros (r & -> & _). reflexivity. Qed.
Lemma records_len2 x : pairs x -> length (records 2 x) = nd_len x.
Proof. intros [->|(r & -> & _)]; reflexivity. Qed.

Theorem C130_equality_partial : forall {F} (eqb : F -> F -> bool) n m (s t : pset F),
  aligned n s -> aligned m t -> same_layout s t ->
  exists b, pset_eq eqb s t = Ok b /\ (b = true <-> complete s).
Proof.
  intros F eqb n m s t ((H1 & _) & (H2 & _) & (H3 & _) & (H4 & _) & (H5 & _) & (H6 & _))
    ((K1 & _) & (K2 & _) & (K3 & _) & (K4 & _) & (K5 & _) & (K6 & _)) (L1 & L2 & L3 & L4 & L5 & L6).
  unfold pset_eq, complete.
  rewrite <- (records_len4 _ H2), <- (records_len4 _ K2) in L2. rewrite <- (records_len2 _ H3), <- (records_len2 _ K3) in L3.
  rewrite <- (records_len4 _ H2), <- (records_len2 _ H3).
  destruct H1 as (x1 & A1 & _), K1 as (y1 & B1 & _), H4 as (x4 & A4 & _), K4 as (y4 & B4 & _),
    H5 as (x5 & A5 & _), K5 as (y5 & B5 & _), H6 as (x6 & A6), K6 as (y6 & B6).
  rewrite A1, B1 in *. rewrite A4, B4 in *. rewrite A5, B5 in *. rewrite A6, B6 in *. cbn [nd_len] in *.
  destruct (flat_eq_len x1 y1 L1) as (m1 & -> & M1). destruct (rec_eq_len eqb 4 _ _ L2) as (m2 & -> & M2).
  destruct (rec_eq_len Z.eqb 2 _ _ L3) as (m3 & -> & M3). destruct (flat_eq_len x4 y4 L4) as (m4 & -> & M4).
  destruct (flat_eq_len x5 y5 L5) as (m5 & -> & M5).
  assert (E6 : mask_eq_nd (Vec x6) (Vec y6) = Ok (Vec (map2 Bool.eqb x6 y6))).
  { unfold mask_eq_nd. cbn [nd_len]. rewrite L6, Nat.eqb_refl. unfold nd_bin. rewrite bc_same by exact L6. cbn [bind].
    apply bools_new. eexists; reflexivity. }
  rewrite E6. rewrite !and_then_vec. rewrite M1, M2, M3, M4, M5, map2_length, <- L6, Nat.min_id.
  repeat match goal with |- context [Nat.eqb ?a 0] => destruct (Nat.eqb_spec a 0) end;
    eexists; (split; [reflexivity|]); split; try discriminate; intuition congruence.
Qed.
Print Assumptions C130_equality_partial.

(** Graphs: comparing a graph with complete particle data against one with as
    many edges always raises. *)
Theorem C130_graphs_partial : forall {F} (eqb : F -> F -> bool) n (g h : graph F),
  aligned_g n g -> aligned_g n h -> complete (g_part g) -> complete (g_part h) ->
  nd_len (a_data (g_adj g)) = nd_len (a_data (g_adj h)) -> graph_eq eqb g h = Err ValueError.
Proof.
  intros F eqb n g h (HA & HP & _) (KA & KP & _) CG CH L.
  assert (SL : same_layout (g_part g) (g_part h)).
  { destruct CG as (C1 & C2 & C3 & C4 & C5 & C6), CH as (D1 & D2 & D3 & D4 & D5 & D6).
    destruct HA as ((_ & S1) & (_ & S2) & (_ & S3) & (_ & S4) & (_ & S5) & (_ & S6)).
    destruct KA as ((_ & T1) & (_ & T2) & (_ & T3) & (_ & T4) & (_ & T5) & (_ & T6)).
    unfold sized in *. unfold same_layout.
    assert (P : forall {X Y} (x : nd X) (y : nd Y), nd_len x = 0 \/ nd_len x = n -> nd_len y = 0 \/ nd_len y = n ->
      nd_len x <> 0 -> nd_len y <> 0 -> nd_len x = nd_len y).
    { clear. intros X Y x y [A|A] [B|B] C D; congruence. }
    repeat split; apply P; assumption. }
  destruct (C130_equality_partial eqb n n _ _ HA KA SL) as (b & E & B). unfold graph_eq. rewrite E. cbn [bind].
  rewrite (proj2 B CG). unfold and_then.
  rewrite (C35_always_raises false _ _ HP KP) by (intros [X Y]; lia). reflexivity.
Qed.
Print Assumptions C130_graphs_partial.

Example C130_case : complete (full 11 1) /\ same_layout (full 11 1) (full (-13) 2) /\
  graph_eq Z.eqb (mkG (full 11 1) (mkA (Mat 2 [[-1; 1]]%Z) [])) (mkG (full 11 1) (mkA (Mat 2 [[-1; 1]]%Z) [])) = Err ValueError.
Proof. repeat split; discriminate. Qed.
