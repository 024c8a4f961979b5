From Verif Require Import Prelude Dict Keys MaskTypes SpecArray Arrays ArraysProofs Composite SpecComposite.

(** * Storage of each class *)

Lemma codes_len fits x : codes fits x -> nd_len x = length (rows x).
Proof. intros (l & -> & _). cbn. rewrite map_length. reflexivity. Qed.
Lemma bools_len x : bools x -> nd_len x = length (rows x).
Proof. intros (l & ->). cbn. rewrite map_length. reflexivity. Qed.
Lemma momenta_len {F} (x : nd F) : momenta x -> nd_len x = length (rows x).
Proof. intros (r & -> & _). reflexivity. Qed.
Lemma pairs_len x : pairs x -> nd_len x = length (rows x).
Proof. intros [->|(r & -> & _)]; reflexivity. Qed.

Lemma codes32_new x : codes fits32 x -> pdg_new (Plain x) = Ok x.
Proof.
  intros (l & -> & H). unfold pdg_new, converter, to_plain. cbn [bind nd_map check_shape Nat.eqb].
  rewrite wrap32_list by exact H. reflexivity.
Qed.
Lemma codes16_new x : codes fits16 x -> status_new (Plain x) = Ok x /\ helicity_new (Plain x) = Ok x.
Proof.
  intros (l & -> & H). unfold status_new, helicity_new, converter, to_plain. cbn [bind nd_map check_shape Nat.eqb].
  rewrite wrap16_list by exact H. auto.
Qed.
Lemma bools_new x : bools x -> mask_new (Plain x) = Ok x.
Proof.
  intros (l & ->). unfold mask_new, converter, to_plain. cbn [bind nd_map check_shape Nat.eqb].
  rewrite map_id. reflexivity.
Qed.
Lemma momenta_new {F} (x : nd F) : momenta x -> pmu_new (Plain x) = Ok x.
Proof.
  intros (r & -> & H). unfold pmu_new, converter, to_plain. cbn [bind]. rewrite nd_map_id. cbn [check_shape Nat.eqb negb].
  rewrite andb_false_r. cbn [bind]. apply reshape_mat; [lia | exact H].
Qed.
Lemma pairs_new x : pairs x -> color_new (Plain x) = Ok x /\ adj_new (Plain x) = Ok x.
Proof.
  intros [->|(r & -> & HL & H)]; unfold color_new, adj_new, converter, to_plain; [split; reflexivity|].
  cbn [bind nd_map]. rewrite (map_id_in (map wrap32) r).
  - cbn [check_shape Nat.eqb negb]. rewrite andb_false_r. auto.
  - eapply Forall_impl; [|exact H]. intros q Hq. apply wrap32_list; exact Hq.
Qed.
Lemma pairs_reshape x : pairs x -> nd_len x <> 0 -> reshape 2 x = Ok x.
Proof.
  intros [->|(r & -> & HL & H)] Hn; [cbn in Hn; congruence|]. apply reshape_mat; [lia | exact HL].
Qed.

(** * One subscript *)

Definition slices {A} (st : nd A -> Prop) (get : nd A -> key -> res (nd A)) : Prop :=
  forall x k, st x -> nd_len x <> 0 -> sub_key k ->
  match resolve (nd_len x) k with
  | Ok ps => exists y, get x k = Ok y /\ st y /\ map Some (rows y) = map (nth_error (rows x)) ps
  | Err e => get x k = Err e
  end.

Lemma getkey_forall {A} (P : A -> Prop) l k r : Forall P l -> getkey l k = Ok r -> Forall P r.
Proof.
  intros H G. apply getkey_ok in G as (ps & _ & E). rewrite Forall_forall in *. intros x Hx.
  assert (Hs : In (Some x) (map Some r)) by (apply in_map; exact Hx).
  rewrite E in Hs. apply in_map_iff in Hs as (p & Hp & _). apply nth_error_In in Hp. auto.
Qed.

Lemma vec_rows_picked {A} (l r : list A) ps :
  map Some r = map (nth_error l) ps -> map Some (rows (Vec r)) = map (nth_error (rows (Vec l))) ps.
Proof.
  intros H. cbn [rows]. rewrite map_map.
  transitivity (map (option_map (fun a => [a])) (map Some r)); [rewrite map_map; reflexivity|].
  rewrite H, map_map. apply map_ext. intros p. symmetry. apply nth_error_map'.
Qed.

Lemma nd_get_vec {A} (l : list A) k : sub_key k -> nd_get (Vec l) k = (r <- getkey l k ;; Ok (Vec r)).
Proof. destruct k; cbn; intros H; try contradiction; reflexivity. Qed.
Lemma nd_get_mat {A} c (l : list (list A)) k : sub_key k -> nd_get (Mat c l) k = (r <- getkey l k ;; Ok (Mat c r)).
Proof. destruct k; cbn; intros H; try contradiction; reflexivity. Qed.

Lemma codes32_slices : slices (codes fits32) pdg_get.
Proof.
  intros x k (l & -> & H) _ Hk. pose proof (getkey_resolve l k) as G. unfold pdg_get. rewrite nd_get_vec by exact Hk.
  cbn [nd_len]. destruct (resolve (length l) k) as [ps|e].
  - destruct G as (r & Hr & E). exists (Vec r). rewrite Hr. cbn [bind].
    assert (C : codes fits32 (Vec r)) by (exists r; split; [reflexivity | eapply getkey_forall; eauto]).
    split; [apply codes32_new; exact C|]. split; [exact C | apply vec_rows_picked; exact E].
  - rewrite G. reflexivity.
Qed.
Lemma codes16_slices : slices (codes fits16) status_get /\ slices (codes fits16) helicity_get.
Proof.
  split; intros x k (l & -> & H) _ Hk; pose proof (getkey_resolve l k) as G; unfold status_get, helicity_get;
    rewrite nd_get_vec by exact Hk; cbn [nd_len]; destruct (resolve (length l) k) as [ps|e].
  - destruct G as (r & Hr & E). exists (Vec r). rewrite Hr. cbn [bind].
    assert (C : codes fits16 (Vec r)) by (exists r; split; [reflexivity | eapply getkey_forall; eauto]).
    split; [apply codes16_new; exact C|]. split; [exact C | apply vec_rows_picked; exact E].
  - rewrite G. reflexivity.
  - destruct G as (r & Hr & E). exists (Vec r). rewrite Hr. cbn [bind].
    assert (C : codes fits16 (Vec r)) by (exists r; split; [reflexivity | eapply getkey_forall; eauto]).
    split; [apply codes16_new; exact C|]. split; [exact C | apply vec_rows_picked; exact E].
  - rewrite G. reflexivity.
Qed.
Lemma bools_slices : slices bools maskarr_get.
Proof.
  intros x k (l & ->) _ Hk. pose proof (getkey_resolve l k) as G. unfold maskarr_get. rewrite nd_get_vec by exact Hk.
  cbn [nd_len]. destruct (resolve (length l) k) as [ps|e].
  - destruct G as (r & Hr & E). exists (Vec r). rewrite Hr. cbn [bind].
    assert (C : bools (Vec r)) by (exists r; reflexivity).
    split; [apply bools_new; exact C|]. split; [exact C | apply vec_rows_picked; exact E].
  - rewrite G. reflexivity.
Qed.
Lemma momenta_slices {F} : slices (@momenta F) pmu_get.
Proof.
  intros x k (l & -> & H) _ Hk. pose proof (getkey_resolve l k) as G. unfold pmu_get. rewrite nd_get_mat by exact Hk.
  cbn [nd_len]. destruct (resolve (length l) k) as [ps|e].
  - destruct G as (r & Hr & E). exists (Mat 4 r). rewrite Hr. cbn [bind].
    assert (C : momenta (Mat 4 r)) by (exists r; split; [reflexivity | eapply getkey_forall; eauto]).
    split; [apply momenta_new; exact C|]. split; [exact C | exact E].
  - rewrite G. reflexivity.
Qed.
Lemma pairs_mat r : Forall (fun p => length p = 2) r -> Forall (Forall fits32) r -> pairs (Mat 2 r).
Proof. intros H1 H2. right. exists r. auto. Qed.
Lemma pairs_slices : slices pairs color_get /\ slices pairs adj_get.
Proof.
  split; intros x k [->|(l & -> & H1 & H2)] Hn Hk; try (cbn in Hn; congruence);
    pose proof (getkey_resolve l k) as G; unfold color_get, adj_get; rewrite nd_get_mat by exact Hk;
    cbn [nd_len]; destruct (resolve (length l) k) as [ps|e].
  - destruct G as (r & Hr & E). exists (Mat 2 r). rewrite Hr. cbn [bind].
    assert (C : pairs (Mat 2 r)) by (apply pairs_mat; eapply getkey_forall; eauto).
    split; [apply pairs_new; exact C|]. split; [exact C | exact E].
  - rewrite G. reflexivity.
  - destruct G as (r & Hr & E). exists (Mat 2 r). rewrite Hr. cbn [bind].
    assert (C : pairs (Mat 2 r)) by (apply pairs_mat; eapply getkey_forall; eauto).
    rewrite reshape_mat by (first [lia | eapply getkey_forall; eauto]).
    split; [apply pairs_new; exact C|]. split; [exact C | exact E].
  - rewrite G. reflexivity.
Qed.

(** One component of a composite. *)
Section One.
  Context {A : Type} (st : nd A -> Prop) (g : nd A -> key -> res (nd A)) (default : nd A).
  Hypothesis Hlen : forall x, st x -> nd_len x = length (rows x).
  Hypothesis Hsl : slices st g.
  Hypothesis Hdef : st default.
  Hypothesis Hrows : rows default = [].

  Lemma slice1_ok n x k ps : st x -> sized n x -> sub_key k -> resolve n k = Ok ps ->
    exists y, slice1 g default x k = Ok y /\ st y /\ sized (length ps) y /\ picked ps x y.
  Proof.
    intros Hx Hs Hk HR. unfold slice1, truthy, picked. destruct (Nat.eqb_spec (nd_len x) 0) as [E|E]; cbn [negb].
    - exists default. split; [reflexivity|]. split; [exact Hdef|]. split; [|exact Hrows].
      left. rewrite Hlen by exact Hdef. rewrite Hrows. reflexivity.
    - destruct Hs as [Hs|Hs]; [congruence|]. pose proof (Hsl x k Hx E Hk) as G. rewrite Hs, HR in G.
      destruct G as (y & Hy & Sy & M). exists y. split; [exact Hy|]. split; [exact Sy|].
      assert (L : length (rows y) = length ps) by (apply (f_equal (@length _)) in M; rewrite !map_length in M; exact M).
      split; [right; rewrite Hlen by exact Sy; exact L|]. split; [exact L|].
      intros j p Hj. pose proof (f_equal (fun z => nth_error z j) M) as E2. cbn beta in E2.
      rewrite !nth_error_map', Hj in E2. cbn in E2. destruct (nth_error (rows y) j); cbn in E2; congruence.
  Qed.

  Lemma slice1_err n x k e : st x -> sized n x -> sub_key k -> resolve n k = Err e ->
    slice1 g default x k = (if Nat.eqb (nd_len x) 0 then Ok default else Err e).
  Proof.
    intros Hx Hs Hk HR. unfold slice1, truthy. destruct (Nat.eqb_spec (nd_len x) 0) as [E|E]; [reflexivity|]. cbn [negb].
    destruct Hs as [Hs|Hs]; [congruence|]. pose proof (Hsl x k Hx E Hk) as G. rewrite Hs, HR in G. exact G.
  Qed.
End One.

Lemma vec0_codes fits : codes fits (Vec []). Proof. exists []. auto. Qed.
Lemma vec0_bools : bools (Vec []). Proof. exists []. auto. Qed.
Lemma mat0_momenta {F} : momenta (Mat 4 ([] : list (list F))). Proof. exists []. auto. Qed.
Lemma vec0_pairs : pairs (Vec []). Proof. left. reflexivity. Qed.

Definition s1_pdg := slice1_ok (codes fits32) pdg_get (Vec []) (codes_len _) codes32_slices (vec0_codes _) eq_refl.
Definition s1_pmu {F} := slice1_ok momenta pmu_get (Mat 4 ([] : list (list F))) momenta_len momenta_slices mat0_momenta eq_refl.
Definition s1_color := slice1_ok pairs color_get (Vec []) pairs_len (proj1 pairs_slices) vec0_pairs eq_refl.
Definition s1_adj := slice1_ok pairs adj_get (Vec []) pairs_len (proj2 pairs_slices) vec0_pairs eq_refl.
Definition s1_hel := slice1_ok (codes fits16) helicity_get (Vec []) (codes_len _) (proj2 codes16_slices) (vec0_codes _) eq_refl.
Definition s1_status := slice1_ok (codes fits16) status_get (Vec []) (codes_len _) (proj1 codes16_slices) (vec0_codes _) eq_refl.
Definition s1_final := slice1_ok bools maskarr_get (Vec []) bools_len bools_slices vec0_bools eq_refl.
Definition e1_pdg := slice1_err (codes fits32) pdg_get (Vec []) codes32_slices.
Definition e1_pmu {F} := slice1_err momenta pmu_get (Mat 4 ([] : list (list F))) momenta_slices.
Definition e1_color := slice1_err pairs color_get (Vec []) (proj1 pairs_slices).
Definition e1_adj := slice1_err pairs adj_get (Vec []) (proj2 pairs_slices).
Definition e1_hel := slice1_err (codes fits16) helicity_get (Vec []) (proj2 codes16_slices).
Definition e1_status := slice1_err (codes fits16) status_get (Vec []) (proj1 codes16_slices).
Definition e1_final := slice1_err bools maskarr_get (Vec []) bools_slices.

Lemma pset_get_ok {F} n (s : pset F) k ps :
  aligned n s -> sub_key k -> resolve n k = Ok ps ->
  exists t, pset_get s k = Ok t /\ picked_p ps s t /\ aligned (length ps) t.
Proof.
  intros ((A1 & B1) & (A2 & B2) & (A3 & B3) & (A4 & B4) & (A5 & B5) & (A6 & B6)) Hk HR. unfold pset_get.
  destruct (s1_pdg n _ k ps A1 B1 Hk HR) as (y1 & -> & C1 & D1 & E1).
  destruct (s1_pmu n _ k ps A2 B2 Hk HR) as (y2 & -> & C2 & D2 & E2).
  destruct (s1_color n _ k ps A3 B3 Hk HR) as (y3 & -> & C3 & D3 & E3).
  destruct (s1_hel n _ k ps A4 B4 Hk HR) as (y4 & -> & C4 & D4 & E4).
  destruct (s1_status n _ k ps A5 B5 Hk HR) as (y5 & -> & C5 & D5 & E5).
  destruct (s1_final n _ k ps A6 B6 Hk HR) as (y6 & -> & C6 & D6 & E6).
  cbn [bind]. eexists. split; [reflexivity|]. unfold picked_p, aligned. cbn. tauto.
Qed.

Lemma pset_bool_spec {F} (s : pset F) :
  pset_bool s = false <-> nd_len (p_pdg s) = 0 /\ nd_len (p_pmu s) = 0 /\ nd_len (p_color s) = 0 /\
     nd_len (p_hel s) = 0 /\ nd_len (p_status s) = 0 /\ nd_len (p_final s) = 0.
Proof.
  unfold pset_bool, truthy. rewrite !orb_false_iff, !negb_false_iff, !Nat.eqb_eq. tauto.
Qed.

Lemma pset_get_err {F} n (s : pset F) k e :
  aligned n s -> sub_key k -> resolve n k = Err e -> pset_bool s = true -> pset_get s k = Err e.
Proof.
  intros ((A1 & B1) & (A2 & B2) & (A3 & B3) & (A4 & B4) & (A5 & B5) & (A6 & B6)) Hk HR HB. unfold pset_get.
  rewrite (e1_pdg n _ k e A1 B1 Hk HR), (e1_pmu n _ k e A2 B2 Hk HR), (e1_color n _ k e A3 B3 Hk HR),
    (e1_hel n _ k e A4 B4 Hk HR), (e1_status n _ k e A5 B5 Hk HR), (e1_final n _ k e A6 B6 Hk HR).
  unfold pset_bool, truthy in HB.
  repeat match goal with
  | |- bind (if ?c then _ else _) _ = _ => destruct c; cbn [bind negb orb] in *; try reflexivity
  end. discriminate.
Qed.

Lemma picked_nil {A} ps (x y : nd A) : nd_len x = 0 -> rows y = [] -> picked ps x y.
Proof. intros E1 E2. unfold picked. rewrite E1. exact E2. Qed.

Lemma empty_aligned {F} n : aligned n (@empty_p F).
Proof.
  unfold aligned, empty_p, sized. cbn.
  repeat split; try (left; reflexivity); try apply vec0_codes; try apply vec0_bools; apply mat0_momenta.
Qed.

Lemma graph_get_ok {F} n (g : graph F) k ps :
  aligned_g n g -> sub_key k -> resolve n k = Ok ps ->
  exists h, graph_get g k = Ok h /\ picked_g ps g h /\ aligned_g (length ps) h.
Proof.
  intros (HA & HP & HS) Hk HR. unfold graph_get.
  assert (P : exists t, (if pset_bool (g_part g) then pset_get (g_part g) k else Ok empty_p) = Ok t /\
              picked_p ps (g_part g) t /\ aligned (length ps) t).
  { destruct (pset_bool (g_part g)) eqn:B; [eapply pset_get_ok; eauto|].
    apply pset_bool_spec in B as (Z1 & Z2 & Z3 & Z4 & Z5 & Z6). exists empty_p. split; [reflexivity|].
    split; [|apply empty_aligned]. unfold picked_p, empty_p; cbn. repeat split; apply picked_nil; auto. }
  destruct P as (t & -> & Pt & At). cbn [bind].
  destruct (s1_adj n _ k ps HP HS Hk HR) as (y & Hy & C & D & E). unfold slice1 in Hy.
  destruct (truthy (a_data (g_adj g))).
  - unfold adjl_get. rewrite Hy. cbn [bind]. eexists. split; [reflexivity|]. unfold picked_g, aligned_g; cbn. tauto.
  - injection Hy as <-. cbn [bind]. eexists. split; [reflexivity|]. unfold picked_g, aligned_g; cbn. tauto.
Qed.

Lemma graph_get_err {F} n (g : graph F) k e :
  aligned_g n g -> sub_key k -> resolve n k = Err e -> graph_bool g = true -> graph_get g k = Err e.
Proof.
  intros (HA & HP & HS) Hk HR HB. unfold graph_get. unfold graph_bool in HB.
  destruct (pset_bool (g_part g)) eqn:B; [rewrite (pset_get_err n _ k e HA Hk HR B); reflexivity|].
  cbn [bind orb] in *. rewrite HB. pose proof (e1_adj n _ k e HP HS Hk HR) as G. unfold slice1 in G. rewrite HB in G.
  unfold adjl_get. rewrite G. unfold truthy in HB. apply negb_true_iff in HB. rewrite HB. reflexivity.
Qed.

(** * Composition of selections *)

Lemma picked_trans {A} (x y z : nd A) p1 p2 :
  nd_len x = length (rows x) -> nd_len y = length (rows y) ->
  (forall q, In q p2 -> q < length p1) ->
  picked p1 x y -> picked p2 y z -> picked (map (fun q => nth q p1 0) p2) x z.
Proof.
  intros Lx Ly Hlt H1 H2. unfold picked in *. destruct (Nat.eqb_spec (nd_len x) 0) as [E|E].
  - rewrite Ly, H1 in H2. cbn in H2. exact H2.
  - destruct H1 as [L1 H1]. rewrite Ly, L1 in H2. destruct (Nat.eqb_spec (length p1) 0) as [E1|E1].
    + destruct p2 as [|q p2]; [rewrite H2; split; [reflexivity|]; intros [|j] p; discriminate|].
      specialize (Hlt q (or_introl eq_refl)). lia.
    + destruct H2 as [L2 H2]. rewrite map_length. split; [exact L2|]. intros j p Hj.
      rewrite nth_error_map' in Hj. destruct (nth_error p2 j) as [q|] eqn:Eq; [|discriminate]. cbn in Hj.
      injection Hj as <-. rewrite (H2 j q Eq).
      assert (Hq : q < length p1) by (apply Hlt; eapply nth_error_In; exact Eq).
      apply H1. apply nth_error_nth'. exact Hq.
Qed.

Lemma picked_fun {A} (x y z : nd A) ps : picked ps x y -> picked ps x z -> rows y = rows z.
Proof.
  unfold picked. destruct (nd_len x =? 0); [congruence|]. intros [L1 H1] [L2 H2]. apply nth_error_ext. intros j.
  destruct (nth_error ps j) as [p|] eqn:E; [rewrite (H1 j p E), (H2 j p E); reflexivity|].
  apply nth_error_None in E. transitivity (@None (list A)); [|symmetry]; apply nth_error_None; lia.
Qed.

Lemma picked_p_fun {F} (s t u : pset F) ps : picked_p ps s t -> picked_p ps s u -> same_p t u.
Proof.
  intros (A1 & A2 & A3 & A4 & A5 & A6) (B1 & B2 & B3 & B4 & B5 & B6). unfold same_p.
  repeat split; eapply picked_fun; eassumption.
Qed.

Lemma picked_p_trans {F} n m (s t u : pset F) p1 p2 :
  aligned n s -> aligned m t -> (forall q, In q p2 -> q < length p1) ->
  picked_p p1 s t -> picked_p p2 t u -> picked_p (map (fun q => nth q p1 0) p2) s u.
Proof.
  intros ((A1 & _) & (A2 & _) & (A3 & _) & (A4 & _) & (A5 & _) & (A6 & _)) ((C1 & _) & (C2 & _) & (C3 & _) & (C4 & _) & (C5 & _) & (C6 & _)) Hlt
    (P1 & P2 & P3 & P4 & P5 & P6) (Q1 & Q2 & Q3 & Q4 & Q5 & Q6). unfold picked_p.
  repeat split; (eapply picked_trans; [| |exact Hlt|eassumption|eassumption]);
    first [eapply codes_len; eassumption | eapply bools_len; eassumption | eapply momenta_len; eassumption | eapply pairs_len; eassumption].
Qed.

Lemma picked_g_trans {F} n m (s t u : graph F) p1 p2 :
  aligned_g n s -> aligned_g m t -> (forall q, In q p2 -> q < length p1) ->
  picked_g p1 s t -> picked_g p2 t u -> picked_g (map (fun q => nth q p1 0) p2) s u.
Proof.
  intros (A & A1 & _) (B & B1 & _) Hlt (P & P1) (Q & Q1). split; [eapply picked_p_trans; eauto|].
  eapply picked_trans; [| |exact Hlt|eassumption|eassumption]; eapply pairs_len; eassumption.
Qed.

(** Positions of the composed mask. *)
Lemma positions_from m n : map fst (filter (fun p : nat * bool => snd p) (enum_from n m)) = map (fun i => n + i) (positions m).
Proof.
  unfold positions, enumerate. rewrite !map_map.
  revert n. assert (G : forall m a b, map fst (filter (fun p : nat * bool => snd p) (enum_from (a + b) m)) =
     map (fun i => a + i) (map fst (filter (fun p : nat * bool => snd p) (enum_from b m)))).
  { clear. induction m as [|x m IH]; intros a b; [reflexivity|]. cbn [enum_from filter snd]. replace (S (a + b)) with (a + S b) by lia.
    destruct x; cbn [map fst]; rewrite (IH a (S b)); reflexivity. }
  intros n. specialize (G m n 0). rewrite Nat.add_0_r in G. rewrite G, map_map. reflexivity.
Qed.

Lemma positions_cons b m : positions (b :: m) = (if b then [0] else []) ++ map S (positions m).
Proof.
  unfold positions at 1. unfold enumerate. cbn [enum_from filter snd].
  assert (E : map fst (filter (fun p : nat * bool => snd p) (enum_from 1 m)) = map S (positions m)).
  { rewrite positions_from. reflexivity. }
  destruct b; cbn [map fst app]; rewrite E; reflexivity.
Qed.

Lemma positions_length m : length (positions m) = count_true m.
Proof.
  induction m as [|b m IH]; [reflexivity|]. rewrite positions_cons, app_length, map_length, IH.
  destruct b; reflexivity.
Qed.

Lemma both_length m1 m2 : length (both m1 m2) = length m1.
Proof.
  revert m2; induction m1 as [|b m1 IH]; intros m2; [reflexivity|].
  destruct b, m2; cbn [both length]; rewrite IH; reflexivity.
Qed.

Lemma both_positions m1 m2 : length m2 = count_true m1 ->
  positions (both m1 m2) = map (fun q => nth q (positions m1) 0) (positions m2).
Proof.
  revert m2; induction m1 as [|b m1 IH]; intros m2 H.
  - destruct m2; [reflexivity | discriminate].
  - destruct b.
    + destruct m2 as [|c m2]; [discriminate|]. cbn [both]. rewrite !positions_cons.
      assert (H' : length m2 = count_true m1) by (unfold count_true in *; cbn in H; lia). clear H; rename H' into H.
      rewrite map_app, map_map. cbn [app]. change (nth 0 (0 :: map S (positions m1)) 0) with 0.
      rewrite IH by exact H. f_equal; [destruct c; reflexivity|].
      rewrite map_map. apply map_ext_in. intros q Hq. cbn [nth].
      assert (Q : q < length (positions m1)).
      { rewrite positions_length, <- H. apply positions_In in Hq. apply nth_error_Some. congruence. }
      rewrite (nth_indep (map S (positions m1)) 0 (S 0)) by (rewrite map_length; exact Q). rewrite map_nth. reflexivity.
    + cbn [both]. rewrite !positions_cons. cbn [app]. change (count_true (false :: m1)) with (count_true m1) in H.
      rewrite IH by exact H. rewrite map_map. apply map_ext_in. intros q Hq.
      assert (Q : q < length (positions m1)).
      { rewrite positions_length, <- H. apply positions_In in Hq. apply nth_error_Some. congruence. }
      rewrite (nth_indep (map S (positions m1)) 0 (S 0)) by (rewrite map_length; exact Q). rewrite map_nth. reflexivity.
Qed.

(** * Lengths *)

Lemma first_pos_all n l : Forall (fun m => m = 0 \/ m = n) l -> Exists (fun m => m = n) l -> first_pos l = n.
Proof.
  unfold first_pos. induction l as [|m l IH]; intros HF HE; [inversion HE|]. inversion HF as [|? ? Hm HF']; subst.
  cbn [find]. destruct (Nat.ltb_spec 0 m).
  - lia.
  - inversion HE as [? ? E|? ? E]; subst; [|apply IH; assumption].
    replace n with 0 in * by lia. clear -HF'.
    induction l as [|m l IH]; [reflexivity|]. inversion HF'; subst. cbn [find]. destruct (Nat.ltb_spec 0 m); [lia | auto].
Qed.

Lemma first_pos_zero l : Forall (fun m => m = 0) l -> first_pos l = 0.
Proof. unfold first_pos. induction 1 as [|m l -> H IH]; [reflexivity | exact IH]. Qed.

Lemma pset_len_bool {F} n (s : pset F) : aligned n s ->
  (pset_bool s = true -> pset_len s = n) /\ (pset_bool s = false -> pset_len s = 0).
Proof.
  intros ((_ & B1) & (_ & B2) & (_ & B3) & (_ & B4) & (_ & B5) & (_ & B6)). split; intros HB.
  - apply first_pos_all.
    + repeat (apply Forall_cons; [assumption|]). apply Forall_nil.
    + unfold pset_bool, truthy in HB. unfold sized in *. apply Exists_exists.
      rewrite !orb_true_iff, !negb_true_iff, !Nat.eqb_neq in HB. exists n. split; [|reflexivity]. cbn. intuition lia.
  - apply pset_bool_spec in HB as (Z1 & Z2 & Z3 & Z4 & Z5 & Z6). apply first_pos_zero. repeat (apply Forall_cons; [assumption|]). apply Forall_nil.
Qed.

(** * Copy *)

Lemma copy1_same {A} (new : inp A -> res (nd A)) default x :
  nd_len x = length (rows x) -> rows default = [] -> new (Plain x) = Ok x ->
  exists y, copy1 new default x = Ok y /\ rows y = rows x.
Proof.
  intros HL HD HN. unfold copy1, truthy. destruct (Nat.eqb_spec (nd_len x) 0) as [E|E]; cbn [negb].
  - exists default. split; [reflexivity|]. rewrite HD. rewrite HL in E. destruct (rows x); [reflexivity | discriminate].
  - exists x. auto.
Qed.

Lemma pset_copy_same {F} n (s : pset F) : aligned n s -> exists t, pset_copy s = Ok t /\ same_p s t.
Proof.
  intros ((A1 & _) & (A2 & _) & (A3 & _) & (A4 & _) & (A5 & _) & (A6 & _)). unfold pset_copy.
  destruct (copy1_same pdg_new (Vec []) _ (codes_len _ _ A1) eq_refl (codes32_new _ A1)) as (y1 & -> & E1).
  destruct (copy1_same pmu_new (Mat 4 []) _ (momenta_len _ A2) eq_refl (momenta_new _ A2)) as (y2 & -> & E2).
  destruct (copy1_same color_new (Vec []) _ (pairs_len _ A3) eq_refl (proj1 (pairs_new _ A3))) as (y3 & -> & E3).
  destruct (copy1_same helicity_new (Vec []) _ (codes_len _ _ A4) eq_refl (proj2 (codes16_new _ A4))) as (y4 & -> & E4).
  destruct (copy1_same status_new (Vec []) _ (codes_len _ _ A5) eq_refl (proj1 (codes16_new _ A5))) as (y5 & -> & E5).
  destruct (copy1_same mask_new (Vec []) _ (bools_len _ A6) eq_refl (bools_new _ A6)) as (y6 & -> & E6).
  cbn [bind]. eexists. split; [reflexivity|]. unfold same_p. cbn. auto 10.
Qed.

Lemma rows_nil {A} (x : nd A) : nd_len x = length (rows x) -> nd_len x = 0 -> rows x = [].
Proof. intros HL E. rewrite HL in E. destruct (rows x); [reflexivity | discriminate]. Qed.

Lemma graph_copy_same {F} n (g : graph F) : aligned_g n g -> exists h, graph_copy g = Ok h /\ same_g g h.
Proof.
  intros (A & P & _). unfold graph_copy.
  assert (H : exists t, (if pset_bool (g_part g) then pset_copy (g_part g) else Ok empty_p) = Ok t /\ same_p (g_part g) t).
  { destruct (pset_bool (g_part g)) eqn:B; [eapply pset_copy_same; exact A|]. exists empty_p. split; [reflexivity|].
    apply pset_bool_spec in B as (Z1 & Z2 & Z3 & Z4 & Z5 & Z6).
    destruct A as ((A1 & _) & (A2 & _) & (A3 & _) & (A4 & _) & (A5 & _) & (A6 & _)). unfold same_p; cbn.
    repeat split; apply rows_nil; auto;
    first [eapply codes_len; eassumption | eapply bools_len; eassumption | eapply momenta_len; eassumption | eapply pairs_len; eassumption]. }
  destruct H as (t & -> & St). cbn [bind]. unfold truthy. destruct (Nat.eqb_spec (nd_len (a_data (g_adj g))) 0) as [E|E]; cbn [negb].
  - cbn [bind]. eexists. split; [reflexivity|]. split; [exact St|]. cbn. apply rows_nil; [apply pairs_len; exact P | exact E].
  - unfold adjl_copy. rewrite (proj2 (pairs_new _ P)). cbn [bind]. eexists. split; [reflexivity|]. split; [exact St|]. reflexivity.
Qed.

(** * LHE recoding *)

Lemma recode_loop_map l : recode_loop l = map recode l.
Proof.
  unfold recode_loop, status_map, replace_code. cbn [fold_left fst snd]. rewrite !map_map. apply map_ext. intros z.
  unfold recode.
  repeat match goal with
  | |- context [(z =? ?c)%Z] => destruct (Z.eqb_spec z c); [subst; reflexivity|]
  end.
  reflexivity.
Qed.

(** * Serialisation *)

Lemma ser_momenta {F} (x : nd F) : momenta x ->
  exists l, ser_rows tuple4 x = Ok l /\ map (fun '(a, b, c, d) => [a; b; c; d]) l = rows x.
Proof.
  intros (r & -> & H). cbn [ser_rows rows]. induction H as [|p r Hp H IH]; [exists []; auto|].
  destruct IH as (l & Hl & E). destruct p as [|a [|b [|c [|d [|]]]]]; try discriminate Hp.
  exists ((a, b, c, d) :: l). cbn [mapM tuple4 bind]. rewrite Hl. cbn. rewrite E. auto.
Qed.
Lemma ser_pairs x : pairs x ->
  exists l, ser_rows tuple2 x = Ok l /\ map (fun '(a, b) => [a; b]) l = rows x.
Proof.
  intros [->|(r & -> & H & _)]; [exists []; auto|]. cbn [ser_rows rows]. induction H as [|p r Hp H IH]; [exists []; auto|].
  destruct IH as (l & Hl & E). destruct p as [|a [|b [|]]]; try discriminate Hp.
  exists ((a, b) :: l). cbn [mapM tuple2 bind]. rewrite Hl. cbn. rewrite E. auto.
Qed.
