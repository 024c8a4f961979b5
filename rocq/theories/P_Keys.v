(** Property theorems about subscript keys: C104. *)
From Verif Require Import Prelude Dict Keys SpecKeys SpecArray Arrays ArraysProofs SpecComposite.
From Coq Require Import Sorted.

Lemma norm_idx_ok n b p : norm_idx n b = Ok p <-> (p < n /\ Z.of_nat p = from_end n b).
Proof.
  unfold norm_idx, from_end.
  destruct ((- Z.of_nat n <=? b) && (b <? Z.of_nat n))%Z eqn:E.
  - apply andb_prop in E as [E1 E2]. apply Z.leb_le in E1. apply Z.ltb_lt in E2.
    split; [intros H; injection H as <-|intros [H1 H2]; f_equal]; destruct (Z.ltb_spec b 0); lia.
  - split; [discriminate|]. intros [H1 H2].
    apply andb_false_iff in E as [E|E]; [apply Z.leb_gt in E | apply Z.ltb_ge in E];
      destruct (Z.ltb_spec b 0); lia.
Qed.

Lemma norm_idx_err n b e : norm_idx n b = Err e <-> (~ (- Z.of_nat n <= b < Z.of_nat n)%Z /\ e = IndexError).
Proof.
  unfold norm_idx.
  destruct ((- Z.of_nat n <=? b) && (b <? Z.of_nat n))%Z eqn:E.
  - apply andb_prop in E as [E1 E2]. apply Z.leb_le in E1. apply Z.ltb_lt in E2.
    split; [discriminate | intros [H _]; lia].
  - apply andb_false_iff in E. split.
    + intros H; injection H as <-. split; [|reflexivity].
      destruct E as [E|E]; [apply Z.leb_gt in E | apply Z.ltb_ge in E]; lia.
    + intros [_ ->]. reflexivity.
Qed.

Lemma zrange_In_iff start step c x :
  In x (zrange start step c) <-> exists j, (0 <= j < Z.of_nat c)%Z /\ (x = start + j * step)%Z.
Proof.
  split; [apply zrange_In|].
  revert start; induction c as [|c IH]; intros start (j & Hj & ->); [lia|].
  cbn [zrange]. destruct (Z.eq_dec j 0) as [->|N]; [left; lia|].
  right. apply IH. exists (j - 1)%Z. split; lia.
Qed.

Lemma zrange_sorted_up start step c : (0 < step)%Z -> (0 <= start)%Z ->
  StronglySorted lt (map Z.to_nat (zrange start step c)).
Proof.
  intros Hs. revert start; induction c as [|c IH]; intros start H0; [constructor|].
  cbn [zrange map]. constructor; [apply IH; lia|].
  apply Forall_forall. intros p Hp. apply in_map_iff in Hp as (x & <- & Hx).
  apply zrange_In in Hx as (j & Hj & ->). nia.
Qed.

Lemma zrange_sorted_down start step c : (step < 0)%Z ->
  (forall x, In x (zrange start step c) -> (0 <= x)%Z) ->
  StronglySorted gt (map Z.to_nat (zrange start step c)).
Proof.
  intros Hs. revert start; induction c as [|c IH]; intros start H0; [constructor|].
  cbn [zrange map]. constructor; [apply IH; intros x Hx; apply H0; right; exact Hx|].
  apply Forall_forall. intros p Hp. apply in_map_iff in Hp as (x & <- & Hx).
  assert (Hx0 : (0 <= x)%Z) by (apply H0; right; exact Hx).
  apply zrange_In in Hx as (j & Hj & ->). nia.
Qed.

Lemma slice_selects n lo hi st l : slice_idx n lo hi st = Ok l ->
  selects n (KSlice lo hi st) (map Z.to_nat l).
Proof.
  intros H. pose proof (fun x => slice_idx_range n lo hi st l x H) as HR. revert H HR.
  unfold selects, slice_idx, in_slice. set (step := match st with Some s => s | None => 1%Z end).
  destruct (Z.eqb_spec step 0) as [E|E]; [discriminate|].
  assert (IN : forall ll, (forall x, In x ll -> (0 <= x < Z.of_nat n)%Z) ->
               forall i, In i (map Z.to_nat ll) <-> In (Z.of_nat i) ll).
  { intros ll HR i. rewrite in_map_iff. split.
    - intros (x & <- & Hx). specialize (HR x Hx). rewrite Z2Nat.id by lia. exact Hx.
    - intros Hx. exists (Z.of_nat i). split; [lia | exact Hx]. }
  destruct (Z.ltb_spec 0 step) as [Hp|Hp]; intros H HR; injection H as <-.
  - set (start := match lo with Some b => adjust 0 (Z.of_nat n) (Z.of_nat n) b | None => 0%Z end) in *.
    set (stop := match hi with Some b => adjust 0 (Z.of_nat n) (Z.of_nat n) b | None => Z.of_nat n end) in *.
    assert (H0 : (0 <= start)%Z).
    { subst start; destruct lo as [b|]; [|lia]. unfold adjust. destruct (Z.ltb_spec b 0); lia. }
    split; [exact E|]. split; [apply zrange_sorted_up; assumption|].
    intros i. rewrite IN by exact HR. rewrite zrange_In_iff.
    set (first := match lo with None => 0%Z | Some b => Z.max 0 (from_end n b) end).
    assert (HF : (start = Z.min first (Z.of_nat n))%Z).
    { subst start first. destruct lo as [b|]; [|lia]. unfold adjust, from_end. destruct (Z.ltb_spec b 0); lia. }
    assert (HS : forall z, (0 <= z < Z.of_nat n)%Z ->
              ((z < stop)%Z <-> match hi with None => True | Some b => (z < from_end n b)%Z end)).
    { intros z Hz. subst stop. destruct hi as [b|]; [|lia]. unfold adjust, from_end. destruct (Z.ltb_spec b 0); lia. }
    assert (HSn : (stop <= Z.of_nat n)%Z).
    { subst stop; destruct hi as [b|]; [|lia]. unfold adjust. destruct (Z.ltb_spec b 0); lia. }
    split.
    + intros (j & Hj & Hx).
      destruct (Z.ltb_spec start stop) as [Hs|Hs]; [|simpl in Hj; lia].
      assert (Hq : (0 <= (stop - start - 1) / step)%Z) by (apply Z.div_pos; lia).
      rewrite Z2Nat.id in Hj by lia.
      assert (Hd : (j * step <= stop - start - 1)%Z).
      { assert (j <= (stop - start - 1) / step)%Z by lia.
        transitivity (((stop - start - 1) / step) * step)%Z; [nia|].
        rewrite Z.mul_comm. apply Z.mul_div_le; lia. }
      assert (HB : (0 <= Z.of_nat i < Z.of_nat n)%Z) by nia.
      assert (first = start) by lia.
      split; [exact HB|]. split; [nia|]. split; [apply HS; nia|].
      exists j. lia.
    + intros (HB & Hfi & Hhi & (q & Hq)).
      apply (HS _ HB) in Hhi. assert (first = start) by lia.
      exists q. assert (0 <= q)%Z by nia.
      destruct (Z.ltb_spec start stop) as [Hs|Hs]; [|lia].
      rewrite Z2Nat.id by (assert (0 <= (stop - start - 1) / step)%Z by (apply Z.div_pos; lia); lia).
      split; [|lia].
      assert (q <= (stop - start - 1) / step)%Z by (apply Z.div_le_lower_bound; nia). lia.
  - assert (Hn : (step < 0)%Z) by lia.
    set (start := match lo with Some b => adjust (-1) (Z.of_nat n - 1) (Z.of_nat n) b | None => (Z.of_nat n - 1)%Z end) in *.
    set (stop := match hi with Some b => adjust (-1) (Z.of_nat n - 1) (Z.of_nat n) b | None => (-1)%Z end) in *.
    split; [exact E|].
    split; [apply zrange_sorted_down; [exact Hn | intros x Hx; apply HR in Hx; lia]|].
    intros i. rewrite IN by exact HR. rewrite zrange_In_iff.
    set (first := match lo with None => (Z.of_nat n - 1)%Z | Some b => Z.min (Z.of_nat n - 1) (from_end n b) end).
    assert (HF : (start = Z.max first (-1))%Z).
    { subst start first. destruct lo as [b|]; [|lia]. unfold adjust, from_end. destruct (Z.ltb_spec b 0); lia. }
    assert (HS : forall z, (0 <= z < Z.of_nat n)%Z ->
              ((stop < z)%Z <-> match hi with None => True | Some b => (from_end n b < z)%Z end)).
    { intros z Hz. subst stop. destruct hi as [b|]; [|lia]. unfold adjust, from_end. destruct (Z.ltb_spec b 0); lia. }
    assert (HSn : (-1 <= stop)%Z).
    { subst stop; destruct hi as [b|]; [|lia]. unfold adjust. destruct (Z.ltb_spec b 0); lia. }
    assert (HFn : (first <= Z.of_nat n - 1)%Z) by (subst first; destruct lo; lia).
    split.
    + intros (j & Hj & Hx).
      destruct (Z.ltb_spec stop start) as [Hs|Hs]; [|simpl in Hj; lia].
      assert (Hq : (0 <= (start - stop - 1) / (- step))%Z) by (apply Z.div_pos; lia).
      rewrite Z2Nat.id in Hj by lia.
      assert (Hd : (j * (- step) <= start - stop - 1)%Z).
      { assert (j <= (start - stop - 1) / (- step))%Z by lia.
        transitivity (((start - stop - 1) / (- step)) * (- step))%Z; [nia|].
        rewrite Z.mul_comm. apply Z.mul_div_le; lia. }
      assert (HB : (0 <= Z.of_nat i < Z.of_nat n)%Z) by nia.
      assert (first = start) by lia.
      split; [exact HB|]. split; [nia|]. split; [apply HS; nia|].
      exists (- j)%Z. lia.
    + intros (HB & Hfi & Hhi & (q & Hq)).
      apply (HS _ HB) in Hhi. assert (first = start) by lia.
      exists (- q)%Z. assert (q <= 0)%Z by nia.
      destruct (Z.ltb_spec stop start) as [Hs|Hs]; [|lia].
      rewrite Z2Nat.id by (assert (0 <= (start - stop - 1) / (- step))%Z by (apply Z.div_pos; lia); lia).
      split; [|lia].
      assert (- q <= (start - stop - 1) / (- step))%Z by (apply Z.div_le_lower_bound; nia). lia.
Qed.

Lemma positions_sorted_from n m :
  StronglySorted lt (map fst (filter (fun p : nat * bool => snd p) (enum_from n m))).
Proof.
  revert n; induction m as [|b m IH]; intros n; [constructor|].
  cbn [enum_from filter snd]. destruct b; [|apply IH]. cbn [map fst]. constructor; [apply IH|].
  apply Forall_forall. intros p Hp. apply in_map_iff in Hp as ([j c] & <- & Hq).
  apply filter_In in Hq as [Hq _]. apply enum_from_In in Hq as [Hq _]. cbn; lia.
Qed.

(** * C104 what a key selects *)

(** Every key either selects the positions Python's rules name, or is rejected
    with the exception numpy documents; there is no third outcome. *)
Theorem C104_key_positions : forall n k,
  (forall ps, resolve n k = Ok ps -> selects n k ps) /\
  (forall e, resolve n k = Err e -> rejects n k e).
Proof.
  intros n k; split.
  - intros ps H. destruct k as [m|b|l|lo hi st]; cbn [resolve] in H; cbn [selects].
    + destruct (Nat.eqb_spec (length m) n) as [E|E]; [|discriminate]. injection H as <-.
      split; [exact E|]. split; [apply positions_sorted_from | intros i; apply positions_In].
    + apply bind_ok in H as (p & Hp & H). injection H as <-. exists p.
      apply norm_idx_ok in Hp. tauto.
    + apply mapM_ok in H. eapply Forall2_impl; [|exact H]. intros b p Hb. apply norm_idx_ok; exact Hb.
    + apply bind_ok in H as (l & Hl & H). injection H as <-. exact (slice_selects n lo hi st l Hl).
  - intros e H. destruct k as [m|b|l|lo hi st]; cbn [resolve] in H; cbn [rejects].
    + destruct (Nat.eqb_spec (length m) n) as [E|E]; [discriminate|]. injection H as <-. auto.
    + destruct (norm_idx n b) eqn:E; cbn [bind] in H; [discriminate|]. injection H as <-.
      apply norm_idx_err; exact E.
    + apply mapM_err in H as (x & Hx & H). apply norm_idx_err in H as [H ->].
      split; [|reflexivity]. exists x. split; [exact Hx | exact H].
    + unfold slice_idx in H. destruct st as [s|].
      * destruct (Z.eqb_spec s 0) as [->|N]; [cbn in H; injection H as <-; auto|].
        destruct (0 <? s)%Z; discriminate H.
      * discriminate H.
Qed.
Print Assumptions C104_key_positions.

(** The rules determine the selection: no two lists of positions satisfy them. *)
Lemma sorted_unique (R : nat -> nat -> Prop) (irr : forall x, ~ R x x)
  (asym : forall x y, R x y -> ~ R y x) l r :
  StronglySorted R l -> StronglySorted R r -> (forall i, In i l <-> In i r) -> l = r.
Proof.
  revert r; induction l as [|x l IH]; intros [|y r] H1 H2 H; auto.
  - exfalso. apply (H y). left; reflexivity.
  - exfalso. apply (H x). left; reflexivity.
  - inversion H1 as [|? ? S1 F1]; subst. inversion H2 as [|? ? S2 F2]; subst.
    assert (x = y) as ->.
    { assert (A : In x (y :: r)) by (apply H; left; reflexivity).
      assert (B : In y (x :: l)) by (apply H; left; reflexivity).
      destruct A as [A|A]; [congruence|]. destruct B as [B|B]; [congruence|].
      rewrite Forall_forall in F1, F2. exfalso. eapply asym; [apply F1; exact B | apply F2; exact A]. }
    f_equal. apply IH; auto. intros i. split; intros Hi.
    + assert (A : In i (y :: r)) by (apply H; right; exact Hi). destruct A as [<-|A]; [|exact A].
      rewrite Forall_forall in F1. exfalso. eapply irr. apply F1; exact Hi.
    + assert (A : In i (y :: l)) by (apply H; right; exact Hi). destruct A as [<-|A]; [|exact A].
      rewrite Forall_forall in F2. exfalso. eapply irr. apply F2; exact Hi.
Qed.

Theorem C104_selection_unique : forall n k ps ps',
  selects n k ps -> selects n k ps' -> ps = ps'.
Proof.
  intros n [m|b|l|lo hi st] ps ps'; cbn [selects].
  - intros (_ & S1 & H1) (_ & S2 & H2).
    apply (sorted_unique lt); auto; try (intros; lia). intros i. rewrite H1, H2. tauto.
  - intros (p & -> & _ & H1) (q & -> & _ & H2). f_equal. lia.
  - intros H1; revert ps'; induction H1 as [|b p l ps Hp H IH]; intros ps' H2; inversion H2; subst; auto.
    f_equal; [lia | apply IH; assumption].
  - intros (_ & S1 & H1) (_ & S2 & H2).
    set (step := match st with Some s => s | None => 1%Z end) in *.
    destruct (0 <? step)%Z.
    + apply (sorted_unique lt); auto; try (intros; lia). intros i. rewrite H1, H2. tauto.
    + apply (sorted_unique gt); auto; try (intros; lia). intros i. rewrite H1, H2. tauto.
Qed.
Print Assumptions C104_selection_unique.

(** Subscripting an array with a mask, an index array or a slice: the result
    holds exactly the selected elements, in selection order, and is rejected
    with the same exception as the key. *)
Theorem C104_subscript_elements : forall (l : list Z) k, sub_key k ->
  (Forall fits32 l -> forall y, pdg_get (Vec l) k = Ok y ->
     exists ps r, selects (length l) k ps /\ y = Vec r /\ map Some r = map (nth_error l) ps) /\
  (Forall fits16 l -> forall y, helicity_get (Vec l) k = Ok y \/ status_get (Vec l) k = Ok y ->
     exists ps r, selects (length l) k ps /\ y = Vec r /\ map Some r = map (nth_error l) ps) /\
  (forall e, pdg_get (Vec l) k = Err e \/ helicity_get (Vec l) k = Err e \/ status_get (Vec l) k = Err e ->
     rejects (length l) k e).
Proof.
  intros l k Hk.
  assert (G : nd_get (Vec l) k = (r <- getkey l k ;; Ok (Vec r))) by (destruct k; [reflexivity | destruct Hk | reflexivity | reflexivity]).
  pose proof (getkey_resolve l k) as HR. pose proof (C104_key_positions (length l) k) as [KP KE].
  assert (FS : forall (P : Z -> Prop) r ps, Forall P l -> map Some r = map (nth_error l) ps -> Forall P r).
  { intros P r ps HF HM. rewrite Forall_forall in *. intros x Hx.
    assert (A : In (Some x) (map Some r)) by (apply in_map; exact Hx). rewrite HM in A.
    apply in_map_iff in A as (p & Hp & _). apply HF. eapply nth_error_In; exact Hp. }
  unfold pdg_get, helicity_get, status_get. rewrite G.
  destruct (resolve (length l) k) as [ps|e] eqn:E.
  - destruct HR as (r & -> & HM). cbn [bind].
    unfold pdg_new, helicity_new, status_new, converter, to_plain. cbn [bind nd_map check_shape Nat.eqb].
    split; [|split].
    + intros HF y Hy. injection Hy as <-. exists ps, (map wrap32 r).
      rewrite (wrap32_list r) by (eapply FS; eauto). auto.
    + intros HF y Hy. assert (Vec (map wrap16 r) = y) as <- by (destruct Hy as [Hy|Hy]; injection Hy as ->; reflexivity).
      exists ps, (map wrap16 r). rewrite (wrap16_list r) by (eapply FS; eauto). auto.
    + intros e [He|[He|He]]; discriminate He.
  - rewrite HR. cbn [bind]. split; [|split].
    + intros _ y Hy; discriminate Hy.
    + intros _ y [Hy|Hy]; discriminate Hy.
    + intros e' [He|[He|He]]; injection He as <-; apply KE; reflexivity.
Qed.
Print Assumptions C104_subscript_elements.

(** The same for the two-dimensional momentum, colour and edge arrays. *)
Theorem C104_subscript_rows : forall k, sub_key k ->
  (forall A (rows : list (list A)), Forall (fun r => length r = 4) rows ->
     (forall y, pmu_get (Mat 4 rows) k = Ok y ->
        exists ps r, selects (length rows) k ps /\ y = Mat 4 r /\ map Some r = map (nth_error rows) ps) /\
     (forall e, pmu_get (Mat 4 rows) k = Err e -> rejects (length rows) k e)) /\
  (forall rows : list (list Z), Forall (fun r => length r = 2) rows -> Forall (Forall fits32) rows ->
     (forall y, color_get (Mat 2 rows) k = Ok y \/ adj_get (Mat 2 rows) k = Ok y ->
        exists ps r, selects (length rows) k ps /\ y = Mat 2 r /\ map Some r = map (nth_error rows) ps) /\
     (forall e, color_get (Mat 2 rows) k = Err e \/ adj_get (Mat 2 rows) k = Err e -> rejects (length rows) k e)).
Proof.
  intros k Hk.
  assert (G : forall A c (rows : list (list A)), nd_get (Mat c rows) k = (r <- getkey rows k ;; Ok (Mat c r)))
    by (intros; destruct k; [reflexivity | destruct Hk | reflexivity | reflexivity]).
  assert (FS : forall A (rows : list A) (P : A -> Prop) r ps, Forall P rows -> map Some r = map (nth_error rows) ps -> Forall P r).
  { intros A rows P r ps HF HM. rewrite Forall_forall in *. intros x Hx.
    assert (B : In (Some x) (map Some r)) by (apply in_map; exact Hx). rewrite HM in B.
    apply in_map_iff in B as (p & Hp & _). apply HF. eapply nth_error_In; exact Hp. }
  split.
  - intros A rows HL. pose proof (getkey_resolve rows k) as HR.
    pose proof (C104_key_positions (length rows) k) as [KP KE].
    unfold pmu_get. rewrite G. destruct (resolve (length rows) k) as [ps|e] eqn:E.
    + destruct HR as (r & -> & HM). cbn [bind].
      assert (Lr : Forall (fun x => length x = 4) r) by (eapply FS; [exact HL | exact HM]).
      unfold pmu_new, converter, to_plain. cbn [bind]. rewrite nd_map_id. cbn [check_shape Nat.eqb negb].
      rewrite andb_false_r. cbn [bind]. rewrite reshape_mat by (auto; lia).
      split; [intros y Hy; injection Hy as <-; exists ps, r; auto | intros e He; discriminate He].
    + rewrite HR. cbn [bind]. split; [intros y Hy; discriminate Hy | intros e' He; injection He as <-; apply KE; reflexivity].
  - intros rows HL HF. pose proof (getkey_resolve rows k) as HR.
    pose proof (C104_key_positions (length rows) k) as [KP KE].
    unfold color_get, adj_get. rewrite G. destruct (resolve (length rows) k) as [ps|e] eqn:E.
    + destruct HR as (r & -> & HM). cbn [bind].
      assert (Lr : Forall (fun x => length x = 2) r) by (eapply FS; [exact HL | exact HM]).
      assert (Fr : Forall (Forall fits32) r) by (eapply FS; [exact HF | exact HM]).
      rewrite reshape_mat by (auto; lia). cbn [bind].
      unfold color_new, adj_new, converter, to_plain. cbn [bind nd_map].
      rewrite (map_id_in (map wrap32) r) by (eapply Forall_impl; [|exact Fr]; intros x Hx; apply wrap32_list; exact Hx).
      cbn [check_shape Nat.eqb negb]. rewrite andb_false_r.
      split; [intros y [Hy|Hy]; injection Hy as <-; exists ps, r; auto | intros e [He|He]; discriminate He].
    + rewrite HR. cbn [bind]. split; [intros y [Hy|Hy]; discriminate Hy | intros e' [He|He]; injection He as <-; apply KE; reflexivity].
Qed.
Print Assumptions C104_subscript_rows.

Example C104_case : selects 5 (KSlice (Some (-1)%Z) (Some (-6)%Z) (Some (-2)%Z)) [4; 2; 0] /\
  pdg_get (Vec [11; 12; 13; 14; 15]%Z) (KSlice (Some (-2)%Z) None None) = Ok (Vec [14; 15]%Z) /\
  sub_key (KSlice (Some (-2)%Z) None None).
Proof.
  split; [|split; [reflexivity | exact I]].
  apply (proj1 (C104_key_positions 5 (KSlice (Some (-1)%Z) (Some (-6)%Z) (Some (-2)%Z))) [4; 2; 0]). reflexivity.
Qed.
