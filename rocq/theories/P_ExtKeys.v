(** C242, C243: subscripts with Ellipsis, None (numpy.newaxis) and tuples of any length. *)
From Verif Require Import Prelude Dict Keys MaskTypes SpecArray Arrays ArraysProofs TupleKeys P_TupleKeys.
From Verif Require Import ExtKeys.

(** The same array, its shape written out. *)
Definition as_array {A} (r : res (nd A)) : res (arr A) := rmap arr_of r.

(** ** Lemmas *)
Lemma zrange_seq c s : map Z.to_nat (zrange (Z.of_nat s) 1 c) = seq s c.
Proof. revert s. induction c as [|c IH]; intros s; [reflexivity|]. cbn [zrange map seq]. rewrite Nat2Z.id. f_equal. rewrite <- IH. do 2 f_equal. lia. Qed.
Lemma resolve_full c : resolve c full = Ok (seq 0 c).
Proof.
  unfold resolve, full, slice_idx. change (1 =? 0)%Z with false. change (0 <? 1)%Z with true. cbn iota. cbn [bind]. do 2 f_equal.
  replace (if (0 <? Z.of_nat c)%Z then Z.to_nat ((Z.of_nat c - 0 - 1) / 1 + 1) else 0) with c; [exact (zrange_seq c 0)|].
  destruct (Z.ltb_spec 0 (Z.of_nat c)); [rewrite Z.div_1_r; lia | lia].
Qed.
Lemma get_all {A} (l : list A) : mapM (get l) (seq 0 (length l)) = Ok l.
Proof.
  assert (G : forall a b : list A, mapM (get (a ++ b)) (seq (length a) (length b)) = Ok b).
  { intros a b. revert a. induction b as [|v b IH]; intros a; [reflexivity|]. cbn [length seq mapM]. unfold get at 1. rewrite nth_error_app2, Nat.sub_diag by lia. cbn [nth_error bind].
    specialize (IH (a ++ [v])). rewrite app_length, <- app_assoc in IH. cbn [length app] in IH. replace (length a + 1) with (S (length a)) in IH by lia. rewrite IH. reflexivity. }
  exact (G [] l).
Qed.
Lemma block_full {A} c (rows : list (list A)) ps : Forall (fun r => length r = c) rows -> mapM (fun p => r <- get rows p ;; mapM (get r) (seq 0 c)) ps = mapM (get rows) ps.
Proof.
  intros HR. rewrite Forall_forall in HR. induction ps as [|p ps IH]; [reflexivity|]. cbn [mapM]. destruct (get rows p) as [r|e] eqn:E; [|reflexivity]. cbn [bind].
  assert (L : length r = c) by (apply HR; unfold get in E; destruct (nth_error rows p) as [r'|] eqn:E'; [injection E as <-; eapply nth_error_In, E' | discriminate]).
  rewrite IH. rewrite <- L at 1. rewrite get_all. reflexivity.
Qed.
Lemma get2_full {A} c (rows : list (list A)) k : Forall (fun r => length r = c) rows -> nd_get2 (Mat c rows) k full = nd_get (Mat c rows) k.
Proof.
  intros HR. unfold nd_get2. rewrite resolve_full. cbn [bind]. change (advanced full) with false. change (is_int full) with false. rewrite !andb_false_r.
  assert (G : is_int k = false -> (ps <- resolve (length rows) k ;; block <- mapM (fun p => r <- get rows p ;; mapM (get r) (seq 0 c)) ps ;; Ok (Mat (length (seq 0 c)) block)) = (r <- getkey rows k ;; Ok (Mat c r))).
  { intros _. unfold getkey. destruct (resolve (length rows) k) as [ps|e]; [|reflexivity]. cbn [bind]. rewrite (block_full c rows ps HR), seq_length. reflexivity. }
  destruct k; cbn [is_int] in *; try (apply G; reflexivity). cbn [resolve nd_get]. destruct (norm_idx (length rows) i) as [p|e]; [|reflexivity]. cbn [bind]. rewrite (block_full c rows [p] HR). cbn [mapM].
  destruct (get rows p) as [r|e]; reflexivity.
Qed.

Lemma elems_map {A B} (f : A -> B) x : elems (nd_map f x) = map f (elems x).
Proof. destruct x; try reflexivity. cbn. rewrite concat_map. reflexivity. Qed.
Lemma newx_arr {A B} (cast : A -> B) n y : newx cast n (arr_of y) = as_array (converter cast n (Plain y)).
Proof.
  unfold newx, converter, to_plain, as_array, arr_of. cbn [bind shape flat]. rewrite <- (elems_map cast). destruct y as [a|l|c rows]; cbn [dims nd_map check_shape elems].
  - cbn [andb length]. destruct (Nat.eqb n 1); reflexivity.
  - cbn [andb]. destruct (Nat.eqb n 1); [reflexivity|]. rewrite map_length. destruct (negb (Nat.eqb (length l) 0) && negb (Nat.eqb (length l) n)); cbn [rmap arr_of dims elems]; unfold rmap; cbn; rewrite ?map_length; reflexivity.
  - rewrite !map_length. destruct (Nat.eqb c 1); cbn [andb hd]; [destruct (Nat.eqb n 1); [reflexivity|]|]; 
    (match goal with |- context [if ?b then _ else _] => destruct b end); unfold rmap, arr_of; cbn [dims elems]; rewrite ?map_length; reflexivity.
Qed.
Lemma reshapex_arr {A} c (y : nd A) s : 0 < c -> reshapex c (Arr s (elems y)) = as_array (reshape c y).
Proof.
  intros H. unfold reshapex, as_array, reshape. cbn [flat]. destruct (Nat.eqb_spec (length (elems y) mod c) 0) as [E|]; [|reflexivity]. unfold rmap, arr_of. cbn [dims elems].
  destruct (chunks_spec c (length (elems y)) H (elems y)) as (F & C); [lia | exact E|]. rewrite C. do 3 f_equal.
  rewrite <- C at 1. rewrite (concat_length_const c _ F). rewrite Nat.div_mul by lia. reflexivity.
Qed.

Lemma place_none its ds : existsb is_none its = false -> place its ds = place (map IKey (keys_of its)) ds.
Proof. revert ds. induction its as [|[k| |] its IH]; intros ds H; cbn in *; try discriminate; try (apply IH; exact H); [reflexivity|]. destruct k, ds; cbn; rewrite ?IH by exact H; reflexivity. Qed.
Lemma place_vec {A} (l : list A) k y : nd_take (Vec l) [k] = Ok y -> place [IKey k] (dims y) = dims y.
Proof. cbn [nd_take]. intros E. destruct k; cbn in E; repeat match type of E with (x <- ?g ;; _) = _ => destruct g; [cbn [bind] in E | discriminate] end; injection E as <-; reflexivity. Qed.
Lemma place_mat {A} c (rows : list (list A)) k1 k2 y : nd_take (Mat c rows) [k1; k2] = Ok y -> place [IKey k1; IKey k2] (dims y) = dims y.
Proof.
  cbn [nd_take nd_get2]. intros E. destruct (resolve (length rows) k1); [cbn [bind] in E | discriminate]. destruct (resolve c k2); [cbn [bind] in E | discriminate].
  destruct k1, k2; cbn [advanced is_int andb] in E; repeat match type of E with (x <- ?g ;; _) = _ => destruct g; [cbn [bind] in E | discriminate] end; injection E as <-; reflexivity.
Qed.
(** Subscripts without None: the shape is that of the plain subscript. *)
Lemma getx_vec {A} (l : list A) its k full_its : existsb is_none its = false -> existsb is_none full_its = false -> expand 1 its = Ok full_its -> keys_of full_its = [k] ->
  nd_getx (Vec l) its = as_array (nd_get (Vec l) k).
Proof.
  intros N N' E K. unfold nd_getx. cbn [dims length]. rewrite E. cbn [bind]. rewrite K. change (nd_take (Vec l) [k]) with (nd_get (Vec l) k).
  destruct (nd_get (Vec l) k) as [y|e] eqn:Y; [|reflexivity]. cbn [bind].
  assert (M : (if moved its then dims y ++ repeat 1 (length (filter is_none its)) else place full_its (dims y)) = dims y).
  { destruct (moved its).
    - replace (filter is_none its) with (@nil item); [apply app_nil_r|]. clear - N. induction its as [|i its IH]; [reflexivity|]. cbn in *. destruct (is_none i); [discriminate|]. apply IH, N.
    - rewrite place_none, K by exact N'. apply (place_vec l k y), Y. }
  rewrite M. reflexivity.
Qed.
Lemma getx_mat {A} c (rows : list (list A)) its k1 k2 full_its : existsb is_none its = false -> existsb is_none full_its = false -> expand 2 its = Ok full_its -> keys_of full_its = [k1; k2] ->
  nd_getx (Mat c rows) its = as_array (nd_get2 (Mat c rows) k1 k2).
Proof.
  intros N N' E K. unfold nd_getx. cbn [dims length]. rewrite E. cbn [bind]. rewrite K. change (nd_take (Mat c rows) [k1; k2]) with (nd_get2 (Mat c rows) k1 k2).
  destruct (nd_get2 (Mat c rows) k1 k2) as [y|e] eqn:Y; [|reflexivity]. cbn [bind].
  assert (M : (if moved its then dims y ++ repeat 1 (length (filter is_none its)) else place full_its (dims y)) = dims y).
  { destruct (moved its).
    - replace (filter is_none its) with (@nil item); [apply app_nil_r|]. clear - N. induction its as [|i its IH]; [reflexivity|]. cbn in *. destruct (is_none i); [discriminate|]. apply IH, N.
    - rewrite place_none, K by exact N'. apply (place_mat c rows k1 k2 y), Y. }
  rewrite M. reflexivity.
Qed.

(** What each class does with the result. *)
Lemma post_one {A B} (cast : A -> B) n r : (y <- as_array r ;; newx cast n y) = as_array (y <- r ;; converter cast n (Plain y)).
Proof. destruct r as [y|e]; [|reflexivity]. apply newx_arr. Qed.
Lemma post_pmu {A} (r : res (nd A)) : (y <- as_array r ;; z <- newx (fun a => a) 4 y ;; reshapex 4 z) = as_array (y <- r ;; pmu_new (Plain y)).
Proof.
  destruct r as [y|e]; [|reflexivity]. unfold as_array at 1. cbn [rmap bind]. rewrite newx_arr. unfold pmu_new. destruct (converter (fun a => a) 4 (Plain y)) as [z|e]; [|reflexivity].
  apply (reshapex_arr 4 z). lia.
Qed.
Lemma post_adj r : (y <- as_array r ;; z <- reshapex 2 y ;; newx wrap32 2 z) = as_array (y <- r ;; z <- reshape 2 y ;; adj_new (Plain z)).
Proof.
  destruct r as [y|e]; [|reflexivity]. unfold as_array at 1. cbn [rmap bind]. unfold arr_of at 1. rewrite (reshapex_arr 2 y) by lia. destruct (reshape 2 y) as [z|e]; [|reflexivity]. apply newx_arr.
Qed.

(** ** C242: Ellipsis, and tuples of zero, one or two keys *)
(** Arrays of one axis. *)
Theorem C242_one_axis : forall l lb k its,
  (In its [[IKey k]; [IKey k; IEll]; [IEll; IKey k]] \/ k = full /\ In its [[]; [IEll]]) ->
  pdg_getx (Vec l) its = as_array (pdg_get (Vec l) k) /\ helicity_getx (Vec l) its = as_array (helicity_get (Vec l) k) /\ status_getx (Vec l) its = as_array (status_get (Vec l) k) /\
  color_getx (Vec l) its = as_array (color_get (Vec l) k) /\ maskarr_getx (Vec lb) its = as_array (maskarr_get (Vec lb) k).
Proof.
  intros l lb k its H.
  assert (G : forall A (x : list A), nd_getx (Vec x) its = as_array (nd_get (Vec x) k)).
  { intros A x. destruct H as [[<-|[<-|[<-|[]]]]|(-> & [<-|[<-|[]]])]; (eapply getx_vec; [reflexivity | | reflexivity | reflexivity]; reflexivity). }
  unfold pdg_getx, helicity_getx, status_getx, color_getx, maskarr_getx. rewrite !G. split; [|split; [|split; [|split]]]; apply post_one.
Qed.
(** Arrays of two axes: x[k, ...] = x[k], x[...] = x[()] = x[:], x[..., k] = x[:, k], and an Ellipsis beside two keys is no more than the two keys. *)
Theorem C242_two_axes : forall {A} (mom : list (list A)) (edges : list (list Z)) k k' its, Forall (fun r => length r = 4) mom -> Forall (fun r => length r = 2) edges ->
  (In its [[IKey k]; [IKey k; IEll]] \/ k = full /\ In its [[]; [IEll]] ->
     pmu_getx (Mat 4 mom) its = as_array (pmu_get (Mat 4 mom) k) /\ color_getx (Mat 2 edges) its = as_array (color_get (Mat 2 edges) k) /\ adj_getx (Mat 2 edges) its = as_array (adj_get (Mat 2 edges) k)) /\
  (In its [[IKey k; IKey k']; [IEll; IKey k; IKey k']; [IKey k; IEll; IKey k']; [IKey k; IKey k'; IEll]] \/ k = full /\ its = [IEll; IKey k'] ->
     pmu_getx (Mat 4 mom) its = as_array (pmu_get2 (Mat 4 mom) k k') /\ color_getx (Mat 2 edges) its = as_array (color_get2 (Mat 2 edges) k k') /\ adj_getx (Mat 2 edges) its = as_array (adj_get2 (Mat 2 edges) k k')).
Proof.
  intros A mom edges k k' its HM HE. split; intros H.
  - assert (G : forall B c (rows : list (list B)), Forall (fun r => length r = c) rows -> nd_getx (Mat c rows) its = as_array (nd_get (Mat c rows) k)).
    { intros B c rows HR. rewrite <- (get2_full c rows k HR). destruct H as [[<-|[<-|[]]]|(-> & [<-|[<-|[]]])]; (eapply getx_mat; [reflexivity | | reflexivity | reflexivity]; reflexivity). }
    unfold pmu_getx, color_getx, adj_getx. rewrite (G A 4 mom HM), (G Z 2 edges HE). split; [apply post_pmu | split; [apply post_one | apply post_adj]].
  - assert (G : forall B c (rows : list (list B)), nd_getx (Mat c rows) its = as_array (nd_get2 (Mat c rows) k k')).
    { intros B c rows. destruct H as [[<-|[<-|[<-|[<-|[]]]]]|(-> & ->)]; (eapply getx_mat; [reflexivity | | reflexivity | reflexivity]; reflexivity). }
    unfold pmu_getx, color_getx, adj_getx. rewrite (G A 4 mom), (G Z 2 edges). split; [apply post_pmu | split; [apply post_one | apply post_adj]].
Qed.
(** Every other subscript without None is refused: two Ellipses, or more keys than axes. *)
Theorem C242_rejects : forall {A} c d (l : list Z) (lb : list bool) (mom : list (list A)) (edges : list (list Z)) its,
  (1 < length (filter is_ell its) \/ 1 < length (keys_of its) ->
     pdg_getx (Vec l) its = Err IndexError /\ helicity_getx (Vec l) its = Err IndexError /\ status_getx (Vec l) its = Err IndexError /\ color_getx (Vec l) its = Err IndexError /\ maskarr_getx (Vec lb) its = Err IndexError) /\
  (1 < length (filter is_ell its) \/ 2 < length (keys_of its) ->
     pmu_getx (Mat c mom) its = Err IndexError /\ color_getx (Mat d edges) its = Err IndexError /\ adj_getx (Mat d edges) its = Err IndexError).
Proof.
  intros A c d l lb mom edges its.
  assert (G : forall B (x : nd B), 1 < length (filter is_ell its) \/ length (dims x) < length (keys_of its) -> nd_getx x its = Err IndexError).
  { intros B x H. unfold nd_getx, expand. replace (Nat.ltb 1 (length (filter is_ell its)) || Nat.ltb (length (dims x)) (length (keys_of its))) with true; [reflexivity|]. symmetry. apply orb_true_iff. rewrite !Nat.ltb_lt. exact H. }
  split; intros H.
  - unfold pdg_getx, helicity_getx, status_getx, color_getx, maskarr_getx. rewrite !G by exact H. repeat split; reflexivity.
  - unfold pmu_getx, color_getx, adj_getx. rewrite (G A), (G Z) by exact H. repeat split; reflexivity.
Qed.
(** These are all the subscripts without None. *)
Theorem C242_all_cases : forall its, existsb is_none its = false ->
  1 < length (filter is_ell its) \/ 2 < length (keys_of its) \/ In its [[]; [IEll]] \/
  (exists k, In its [[IKey k]; [IKey k; IEll]; [IEll; IKey k]]) \/
  (exists k k', In its [[IKey k; IKey k']; [IEll; IKey k; IKey k']; [IKey k; IEll; IKey k']; [IKey k; IKey k'; IEll]]).
Proof.
  intros its H.
  destruct its as [|[a| |] [|[b| |] [|[c| |] r]]]; try discriminate; cbn [keys_of flat_map app length filter is_ell] in *; try (right; left; lia); try (left; lia).
  all: try (right; right; left; cbn; tauto).
  all: try (right; right; right; left; eexists; cbn; eauto 6; fail).
  all: try (right; right; right; right; do 2 eexists; cbn; eauto 8; fail).
  all: destruct r as [|[e| |] r]; try discriminate; cbn [keys_of flat_map app length filter is_ell] in *; try (right; left; lia); try (left; lia).
  all: try (right; right; right; right; do 2 eexists; cbn; eauto 8; fail).
Qed.

(** ** C243: None *)
(** Edges come out the same with or without any None, in any subscript. *)
Theorem C243_edges : forall x its, adj_getx x its = adj_getx x (filter (fun i => negb (is_none i)) its).
Proof.
  intros x its. set (keep := fun i => negb (is_none i)).
  assert (KF : forall l, keys_of (filter keep l) = keys_of l) by (induction l as [|[k| |] l IH]; [reflexivity | exact (f_equal (cons k) IH) | exact IH | exact IH]).
  assert (EF : forall l, filter is_ell (filter keep l) = filter is_ell l) by (induction l as [|[k| |] l IH]; [reflexivity | exact IH | exact (f_equal (cons IEll) IH) | exact IH]).
  assert (XE : expand (length (dims x)) (filter keep its) = rmap (filter keep) (expand (length (dims x)) its)).
  { unfold expand. rewrite KF, EF. destruct (Nat.ltb 1 (length (filter is_ell its)) || Nat.ltb (length (dims x)) (length (keys_of its))); [reflexivity|]. unfold rmap. cbn [bind]. f_equal.
    assert (PF : forall n, filter keep (repeat (IKey full) n) = repeat (IKey full) n) by (induction n as [|n IH]; cbn; rewrite ?IH; reflexivity).
    destruct (Nat.eqb (length (filter is_ell its)) 0); [rewrite filter_app, PF; reflexivity|].
    generalize (length (dims x) - length (keys_of its)). intros n. clear KF EF. induction its as [|[k| |] l IH]; [reflexivity | exact (f_equal (cons (IKey k)) IH) | | exact IH].
    cbn [filter keep is_none negb flat_map is_ell]. rewrite filter_app, PF. f_equal. exact IH. }
  unfold adj_getx, nd_getx. rewrite XE. destruct (expand (length (dims x)) its) as [f|e]; [|reflexivity]. unfold rmap. cbn [bind]. rewrite KF.
  destruct (nd_take x (keys_of f)) as [y|e]; [|reflexivity]. cbn [bind]. unfold reshapex. cbn [flat]. reflexivity.
Qed.

Lemma keys_repeat p : keys_of (repeat INone p) = [].
Proof. induction p; cbn; auto. Qed.
Lemma ell_repeat p : filter is_ell (repeat INone p) = [].
Proof. induction p; cbn; auto. Qed.
Lemma keys_app a b : keys_of (a ++ b) = keys_of a ++ keys_of b.
Proof. apply flat_map_app. Qed.
Lemma place_repeat p its ds : place (repeat INone p ++ its) ds = repeat 1 p ++ place its ds.
Proof. induction p; cbn; rewrite ?IHp; reflexivity. Qed.
Lemma moved_one its k : keys_of its = [k] -> moved its = false.
Proof. intros H. unfold moved. rewrite H. reflexivity. Qed.

Definition nones (p : nat) (k : key) (q : nat) : list item := repeat INone p ++ IKey k :: repeat INone q.
Lemma keys_nones p k q : keys_of (nones p k q) = [k].
Proof. unfold nones. rewrite keys_app. cbn [keys_of flat_map app]. fold (keys_of (repeat INone q)). rewrite !keys_repeat. reflexivity. Qed.
Lemma ells_nones p k q : filter is_ell (nones p k q) = [].
Proof. unfold nones. rewrite filter_app. cbn [filter is_ell]. rewrite !ell_repeat. reflexivity. Qed.
Lemma shape_vec {A} (l : list A) p k q : nd_getx (Vec l) (nones p k q) = rmap (fun y => Arr (repeat 1 p ++ dims y ++ repeat 1 q) (elems y)) (nd_get (Vec l) k).
Proof.
  unfold nd_getx, expand. cbn [dims length]. rewrite (moved_one (nones p k q) k (keys_nones p k q)), keys_nones, ells_nones. cbn [length Nat.ltb Nat.leb orb Nat.eqb Nat.sub repeat bind]. rewrite app_nil_r, keys_nones.
  change (nd_take (Vec l) [k]) with (nd_get (Vec l) k). destruct (nd_get (Vec l) k) as [y|e] eqn:E; [|reflexivity]. cbn [bind rmap]. unfold rmap. cbn [bind]. do 2 f_equal. unfold nones. rewrite place_repeat. f_equal.
  assert (R : place (repeat INone q) [] = repeat 1 q) by (rewrite <- (app_nil_r (repeat INone q)), place_repeat; apply app_nil_r).
  destruct k; cbn in E; repeat match type of E with (x <- ?g ;; _) = _ => destruct g; [cbn [bind] in E | discriminate] end; injection E as <-; cbn [place dims app]; rewrite R; reflexivity.
Qed.

(** One-column arrays: one integer gives the element whatever the new axes; otherwise exactly one None in front is refused (unless a single
    record is selected), and none, two or more in front are the subscript without them; those behind never matter. *)
Theorem C243_one_column : forall l lb p q k, 
  let same := pdg_getx (Vec l) (nones p k q) = as_array (pdg_get (Vec l) k) /\ helicity_getx (Vec l) (nones p k q) = as_array (helicity_get (Vec l) k) /\
              status_getx (Vec l) (nones p k q) = as_array (status_get (Vec l) k) in
  let same_mask := maskarr_getx (Vec lb) (nones p k q) = as_array (maskarr_get (Vec lb) k) in
  (one_position k \/ p <> 1 -> same /\ same_mask) /\
  (forall ps, ~ one_position k -> p = 1 -> resolve (length l) k = Ok ps ->
     (length ps = 1 -> same) /\
     (length ps <> 1 -> pdg_getx (Vec l) (nones p k q) = Err ValueError /\ helicity_getx (Vec l) (nones p k q) = Err ValueError /\ status_getx (Vec l) (nones p k q) = Err ValueError)) /\
  (forall ps, ~ one_position k -> p = 1 -> resolve (length lb) k = Ok ps ->
     (length ps = 1 -> same_mask) /\ (length ps <> 1 -> maskarr_getx (Vec lb) (nones p k q) = Err ValueError)).
Proof.
  intros l lb p q k same same_mask.
  assert (OUT : forall A B (cast : A -> B) (x : list A), let r := y <- nd_getx (Vec x) (nones p k q) ;; newx cast 1 y in let r0 := as_array (y <- nd_get (Vec x) k ;; converter cast 1 (Plain y)) in
    (one_position k \/ p <> 1 -> r = r0) /\ (forall ps, ~ one_position k -> p = 1 -> resolve (length x) k = Ok ps -> (length ps = 1 -> r = r0) /\ (length ps <> 1 -> r = Err ValueError))).
  { intros A B cast x r r0.
    assert (FLAT : forall y, (match repeat 1 p ++ dims y ++ repeat 1 q with _ :: d :: _ => Nat.eqb d 1 | _ => true end) = true -> nd_get (Vec x) k = Ok y -> (exists v, y = Sc v) \/ (exists v, y = Vec v) -> r = r0).
    { intros y F E S. subst r r0. rewrite shape_vec, E. unfold rmap. cbn [bind]. unfold newx. cbn [shape flat]. rewrite F. cbn [andb Nat.eqb]. destruct S as [(v & ->)|(v & ->)]; reflexivity. }
    assert (ONES : forall n, (match repeat 1 n with _ :: d :: _ => Nat.eqb d 1 | _ => true end) = true) by (intros [|[|n]]; reflexivity).
    assert (KIND : forall y, nd_get (Vec x) k = Ok y -> (one_position k /\ exists v, y = Sc v) \/ (~ one_position k /\ exists v, y = Vec v /\ forall ps, resolve (length x) k = Ok ps -> length v = length ps)).
    { intros y E. destruct k as [m|i|ns|lo hi st]; [right | left | right | right].
      2: { cbn in E. split; [eexists; reflexivity|]. destruct (norm_idx (length x) i); [cbn [bind] in E | discriminate]. destruct (get x a); [cbn [bind] in E | discriminate]. injection E as <-. eexists. reflexivity. }
      all: (split; [intros (i & W); discriminate|]); unfold nd_get in E; match type of E with (r <- getkey ?l ?k ;; _) = _ => pose proof (getkey_resolve l k) as G end;
        (match type of G with match ?z with _ => _ end => destruct z as [ps|e] eqn:RS end); [|rewrite G in E; discriminate];
        destruct G as (v & G & GL); rewrite G in E; cbn [bind] in E; injection E as <-; exists v; split; [reflexivity|]; intros ps' EP; injection EP as <-; 
        apply (f_equal (@length _)) in GL; rewrite !map_length in GL; exact GL. }
    assert (ERR : forall e, nd_get (Vec x) k = Err e -> r = r0) by (intros e E; subst r r0; rewrite shape_vec, E; reflexivity).
    assert (CASE : (exists y, nd_get (Vec x) k = Ok y) \/ (exists e, nd_get (Vec x) k = Err e)) by (destruct (nd_get (Vec x) k); eauto).
    split.
    - intros H. destruct CASE as [(y & E)|(e & E)]; [|eapply ERR; exact E]. destruct (KIND y E) as [(O & v & ->)|(NO & v & -> & _)].
      + apply (FLAT (Sc v)); [|exact E | left; eexists; reflexivity]. cbn [dims app]. rewrite <- repeat_app. apply ONES.
      + apply (FLAT (Vec v)); [|exact E | right; eexists; reflexivity]. destruct H as [H|H]; [contradiction|]. cbn [dims]. destruct p as [|[|p']]; [destruct q; reflexivity | congruence | reflexivity].
    - intros ps NO P1 EP. destruct CASE as [(y & E)|(e & E)].
      2: { exfalso. destruct k as [m|i|ns|lo hi st]; [|apply NO; eexists; reflexivity| |]; unfold nd_get in E; match type of E with (r <- getkey ?l ?k ;; _) = _ => pose proof (getkey_resolve l k) as G; rewrite EP in G; destruct G as (v & G & _); rewrite G in E; discriminate E end. }
      destruct (KIND y E) as [(O & _)|(_ & v & -> & LV)]; [contradiction|]. specialize (LV ps EP). split; intros LP.
      + apply (FLAT (Vec v)); [|exact E | right; eexists; reflexivity]. rewrite P1. cbn [repeat app dims]. rewrite LV, LP. reflexivity.
      + subst r. rewrite shape_vec, E. unfold rmap. cbn [bind]. unfold newx. cbn [shape flat dims]. rewrite P1. cbn [repeat app]. rewrite LV. destruct (Nat.eqb_spec (length ps) 1); [contradiction|]. cbn [andb Nat.eqb negb hd].
        destruct (Nat.eqb_spec (length ps) 1); [contradiction|]. reflexivity. }
  subst same same_mask. unfold pdg_getx, helicity_getx, status_getx, maskarr_getx.
  destruct (OUT Z Z wrap32 l) as (P1 & P2), (OUT Z Z wrap16 l) as (H1 & H2), (OUT bool bool (fun b => b) lb) as (M1 & M2). cbv zeta in *.
  split; [|split].
  - intros H. split; [split; [|split]; auto | auto].
  - intros ps NO E1 EP. destruct (P2 ps NO E1 EP), (H2 ps NO E1 EP). split; intros L; (split; [|split]; auto).
  - intros ps NO E1 EP. destruct (M2 ps NO E1 EP). split; auto.
Qed.

Lemma expand_nones {A} c (rows : list (list A)) p k q : expand (length (dims (Mat c rows))) (nones p k q) = Ok (nones p k q ++ [IKey full]).
Proof. unfold expand. rewrite keys_nones, ells_nones. reflexivity. Qed.
Lemma place_nones_end q d : place (repeat INone q ++ [IKey full]) [d] = repeat 1 q ++ [d].
Proof. rewrite place_repeat. reflexivity. Qed.
(** The result of the subscript before the constructor: one position, or several. *)
Lemma shape_one {A} c (rows : list (list A)) p i q : Forall (fun r => length r = c) rows ->
  nd_getx (Mat c rows) (nones p (KInt i) q) = rmap (fun y => Arr (repeat 1 p ++ repeat 1 q ++ [c]) (elems y)) (nd_get (Mat c rows) (KInt i)).
Proof.
  intros HR. unfold nd_getx. rewrite expand_nones. cbn [bind]. rewrite (moved_one _ _ (keys_nones p (KInt i) q)), keys_app, keys_nones. cbn [keys_of flat_map app].
  change (nd_take (Mat c rows) [KInt i; full]) with (nd_get2 (Mat c rows) (KInt i) full). rewrite (get2_full c rows _ HR). destruct (nd_get (Mat c rows) (KInt i)) as [y|e] eqn:E; [|reflexivity]. cbn [bind]. unfold rmap. cbn [bind].
  unfold nones. rewrite <- app_assoc, place_repeat. cbn [app place]. assert (D : dims y = [c]).
  { cbn in E. destruct (norm_idx (length rows) i) as [j|]; [|discriminate]. cbn [bind] in E. unfold get in E. destruct (nth_error rows j) as [r|] eqn:N; [|discriminate]. cbn [bind] in E. injection E as <-. cbn [dims].
    rewrite Forall_forall in HR. f_equal. apply HR. eapply nth_error_In, N. }
  rewrite D, place_nones_end. reflexivity.
Qed.
Lemma get_many {A} c (rows : list (list A)) k ps : ~ one_position k -> resolve (length rows) k = Ok ps -> exists out, nd_get (Mat c rows) k = Ok (Mat c out) /\ length out = length ps.
Proof.
  intros NO EP. pose proof (getkey_resolve rows k) as G. rewrite EP in G. destruct G as (r & G & L). apply (f_equal (@length _)) in L. rewrite !map_length in L.
  exists r. split; [|exact L]. destruct k as [m|i|ns|lo hi st]; [| exfalso; apply NO; eexists; reflexivity | |]; unfold nd_get; rewrite G; reflexivity.
Qed.
Lemma shape_many {A} c (rows out : list (list A)) p k q : Forall (fun r => length r = c) rows -> ~ one_position k -> nd_get (Mat c rows) k = Ok (Mat c out) ->
  nd_getx (Mat c rows) (nones p k q) = Ok (Arr (repeat 1 p ++ length out :: repeat 1 q ++ [c]) (concat out)).
Proof.
  intros HR NO E. unfold nd_getx. rewrite expand_nones. cbn [bind]. rewrite (moved_one _ _ (keys_nones p k q)), keys_app, keys_nones. cbn [keys_of flat_map app].
  change (nd_take (Mat c rows) [k; full]) with (nd_get2 (Mat c rows) k full). rewrite (get2_full c rows _ HR), E. cbn [bind dims elems]. do 2 f_equal.
  unfold nones. rewrite <- app_assoc, place_repeat. f_equal. cbn [app]. destruct k as [m|i|ns|lo hi st]; [| exfalso; apply NO; eexists; reflexivity | |]; cbn [place]; rewrite place_nones_end; reflexivity.
Qed.
(** Momenta, [x[None, .., k, None, ..]].  One integer: at most one None in all.  Otherwise: none in front (with any behind: four records or none), or one in
    front of four records.  With an Ellipsis after the key, any number behind. *)
Theorem C243_momentum : forall {A} (rows : list (list A)) p q k, Forall (fun r => length r = 4) rows ->
  let got := pmu_getx (Mat 4 rows) (nones p k q) in
  let same := as_array (pmu_get (Mat 4 rows) k) in
  (forall ps, resolve (length rows) k = Ok ps ->
    (one_position k -> (p + q <= 1 -> got = same) /\ (2 <= p + q -> got = Err ValueError)) /\
    (~ one_position k ->
       (p = 0 /\ (q = 0 \/ length ps = 4 \/ length ps = 0) \/ p = 1 /\ length ps = 4 -> got = same) /\
       (p = 0 /\ 1 <= q /\ length ps <> 4 /\ length ps <> 0 \/ p = 1 /\ length ps <> 4 \/ 2 <= p -> got = Err ValueError))) /\
  (forall e, resolve (length rows) k = Err e -> got = Err e) /\
  pmu_getx (Mat 4 rows) (IKey k :: IEll :: repeat INone q) = same.
Proof.
  intros A rows p q k HR got same. split; [|split].
  - intros ps EP. split.
    + intros (i & ->). subst got. unfold pmu_getx. rewrite (shape_one 4 rows p i q HR). pose proof (@post_pmu A (nd_get (Mat 4 rows) (KInt i))) as SAME. fold (pmu_get (Mat 4 rows) (KInt i)) in SAME. fold same in SAME. rewrite <- SAME. clear SAME same.
      cbn [resolve] in EP. destruct (norm_idx (length rows) i) as [j|] eqn:EJ; [|discriminate]. pose proof (norm_idx_lt _ _ _ EJ) as LJ. destruct (nth_error rows j) as [r|] eqn:N; [|apply nth_error_None in N; lia].
      assert (L4 : length r = 4) by (rewrite Forall_forall in HR; eapply HR, nth_error_In, N).
      assert (E : nd_get (Mat 4 rows) (KInt i) = Ok (Vec r)) by (cbn [nd_get]; rewrite EJ; cbn [bind]; unfold get; rewrite N; reflexivity). rewrite E. unfold as_array, rmap, arr_of. cbn [bind dims elems]. rewrite L4.
      rewrite app_assoc, <- repeat_app. split; intros H.
      * destruct (p + q) as [|[|n]]; [| |lia]; unfold newx; cbn [repeat app shape flat andb Nat.eqb hd negb bind]; rewrite ?map_id; reflexivity.
      * destruct (p + q) as [|[|n]]; [lia|lia|]. unfold newx. cbn [repeat app shape flat andb Nat.eqb hd negb bind]. reflexivity.
    + intros NO. destruct (get_many 4 rows k ps NO EP) as (out & E & LO). subst got same. unfold pmu_getx. rewrite (shape_many 4 rows out p k q HR NO E). cbn [bind].
      pose proof (@post_pmu A (nd_get (Mat 4 rows) k)) as SAME. fold (pmu_get (Mat 4 rows) k) in SAME. rewrite <- SAME, E. unfold as_array, rmap, arr_of. cbn [bind dims elems]. rewrite LO. clear SAME E.
      assert (OLD : (z <- newx (fun a => a) 4 (Arr [length ps; 4] (concat out)) ;; reshapex 4 z) = reshapex 4 (Arr [length ps; 4] (concat out))).
      { unfold newx. cbn [shape flat hd]. rewrite map_id. cbn [Nat.eqb andb negb]. rewrite andb_false_r. reflexivity. }
      rewrite OLD. clear OLD.
      assert (NEW : forall s, (z <- newx (fun a => a) 4 (Arr s (concat out)) ;; reshapex 4 z) = match s with
        | [] => Err IndexError
        | n :: rest => if negb (Nat.eqb n 0) && negb (Nat.eqb (if match rest with d :: _ => Nat.eqb d 1 | [] => true end then n else hd 0 rest) 4) then Err ValueError else reshapex 4 (Arr s (concat out)) end).
      { intros s. unfold newx. cbn [shape flat]. rewrite map_id, andb_false_r. destruct s as [|n rest]; [reflexivity|]. cbn zeta. destruct rest; match goal with |- context [if ?b then Err _ else _] => destruct b end; reflexivity. }
      rewrite NEW. clear NEW. change (reshapex 4 (Arr [length ps; 4] (concat out))) with (reshapex 4 (Arr (repeat 1 p ++ length ps :: repeat 1 q ++ [4]) (concat out))). split.
      * intros [(-> & H)|(-> & H)]; cbn [repeat app].
        -- destruct q as [|q]; cbn [repeat app hd]; [cbn [Nat.eqb negb]; rewrite andb_false_r; reflexivity|]. cbn [Nat.eqb]. destruct H as [H|[H|H]]; [discriminate| |]; rewrite H; reflexivity.
        -- rewrite H. reflexivity.
      * intros [(-> & H1 & H4 & H0)|[(-> & H)|H]].
        -- destruct q as [|q]; [lia|]. cbn [repeat app hd Nat.eqb]. apply Nat.eqb_neq in H4, H0. rewrite H4, H0. reflexivity.
        -- cbn [repeat app hd]. destruct (Nat.eqb_spec (length ps) 1) as [E1|]; [reflexivity|]. apply Nat.eqb_neq in H. rewrite H. reflexivity.
        -- destruct p as [|[|p]]; [lia|lia|]. reflexivity.
  - intros e EP. subst got. unfold pmu_getx. unfold nd_getx. rewrite expand_nones. cbn [bind]. rewrite keys_app, keys_nones. cbn [keys_of flat_map app nd_take nd_get2]. rewrite EP. reflexivity.
  - subst same. unfold pmu_get. rewrite <- post_pmu. unfold pmu_getx.
    assert (X : expand (length (dims (Mat 4 rows))) (IKey k :: IEll :: repeat INone q) = Ok (IKey k :: IKey full :: repeat INone q)).
    { unfold expand. cbn [keys_of flat_map app filter is_ell]. fold (keys_of (repeat INone q)). rewrite keys_repeat, ell_repeat. cbn [dims length Nat.ltb Nat.leb orb Nat.eqb Nat.sub repeat flat_map is_ell app]. do 3 f_equal. clear. induction q as [|q IH]; [reflexivity|]. cbn. f_equal. exact IH. }
    unfold nd_getx. rewrite X. cbn [bind]. rewrite (moved_one _ k) by (cbn [keys_of flat_map app]; fold (keys_of (repeat INone q)); rewrite keys_repeat; reflexivity).
    cbn [keys_of flat_map app]. fold (keys_of (repeat INone q)). rewrite keys_repeat. change (nd_take (Mat 4 rows) [k; full]) with (nd_get2 (Mat 4 rows) k full). rewrite (get2_full 4 rows k HR).
    destruct (nd_get (Mat 4 rows) k) as [y|e] eqn:E; [|reflexivity]. unfold as_array, rmap. cbn [bind].
    assert (PL : forall d, place (IKey full :: repeat INone q) [d] = d :: repeat 1 q).
    { intros d. cbn [place full]. f_equal. rewrite <- (app_nil_r (repeat INone q)), place_repeat. apply app_nil_r. }
    assert (CASE : (exists i r, k = KInt i /\ y = Vec r /\ length r = 4) \/ (exists out, y = Mat 4 out /\ place (IKey k :: IKey full :: repeat INone q) [length out; 4] = length out :: 4 :: repeat 1 q)).
    { destruct k as [m|i|ns|lo hi st]; [right | left | right | right].
      2: { cbn in E. destruct (norm_idx (length rows) i) as [j|]; [|discriminate]. cbn [bind] in E. unfold get in E. destruct (nth_error rows j) as [r|] eqn:N; [|discriminate]. cbn [bind] in E. injection E as <-.
        exists i, r. split; [reflexivity|]. split; [reflexivity|]. rewrite Forall_forall in HR. eapply HR, nth_error_In, N. }
      all: unfold nd_get in E; destruct (getkey rows _) as [out|]; [|discriminate]; cbn [bind] in E; injection E as <-; exists out; (split; [reflexivity|]); change (place (IKey ?k :: IKey full :: repeat INone q) [length out; 4]) with (length out :: place (IKey full :: repeat INone q) [4]); rewrite PL; reflexivity. }
    destruct CASE as [(i & r & -> & -> & L)|(out & -> & P)].
    + cbn [dims elems]. rewrite L. change (place (IKey (KInt i) :: IKey full :: repeat INone q) [4]) with (place (IKey full :: repeat INone q) [4]). rewrite PL. unfold arr_of, newx. cbn [dims elems shape flat]. rewrite L, map_id, !andb_false_r.
      destruct q as [|q]; cbn [repeat app Nat.eqb hd negb andb bind]; reflexivity.
    + cbn [dims elems]. rewrite P. unfold arr_of, newx. cbn [dims elems shape flat hd Nat.eqb negb andb]. rewrite map_id, !andb_false_r. cbn [bind]. reflexivity.
Qed.
(** Two arrays (or an array and an integer) with a None between them: numpy moves the selected axis to the front, so the Nones, wherever they stand and
    however many, are harmless to momenta. *)
Lemma apart_nones p k r : apart (repeat INone p ++ IKey k :: INone :: r) = true.
Proof. induction p as [|p IH]; [reflexivity | exact IH]. Qed.
Theorem C243_moved : forall {A} (rows : list (list A)) p m q k1 k2, array_key k1 /\ (array_key k2 \/ one_position k2) \/ one_position k1 /\ array_key k2 ->
  pmu_getx (Mat 4 rows) (repeat INone p ++ IKey k1 :: repeat INone (S m) ++ IKey k2 :: repeat INone q) = as_array (pmu_get2 (Mat 4 rows) k1 k2).
Proof.
  intros A rows p m q k1 k2 H. unfold pmu_get2. rewrite <- post_pmu. unfold pmu_getx. set (its := repeat INone p ++ IKey k1 :: repeat INone (S m) ++ IKey k2 :: repeat INone q).
  assert (K : keys_of its = [k1; k2]).
  { unfold its. rewrite keys_app, keys_repeat. cbn [app]. change (k1 :: keys_of (repeat INone (S m) ++ IKey k2 :: repeat INone q) = [k1; k2]). rewrite keys_app, keys_repeat. change (k1 :: k2 :: keys_of (repeat INone q) = [k1; k2]). rewrite keys_repeat. reflexivity. }
  assert (E : filter is_ell its = []).
  { unfold its. rewrite filter_app, ell_repeat. change (filter is_ell (repeat INone (S m) ++ IKey k2 :: repeat INone q) = []). rewrite filter_app, ell_repeat. apply ell_repeat. }
  assert (M : moved its = true).
  { unfold moved. rewrite K. unfold its at 1. cbn [repeat app]. rewrite apart_nones, andb_true_r. destruct H as [([(v & ->)|(v & ->)] & [[(w & ->)|(w & ->)]|(w & ->)])|((v & ->) & [(w & ->)|(w & ->)])]; reflexivity. }
  unfold nd_getx, expand. rewrite K, E. cbn [dims length Nat.ltb Nat.leb orb Nat.sub repeat Nat.eqb bind]. rewrite app_nil_r, K, M. change (nd_take (Mat 4 rows) [k1; k2]) with (nd_get2 (Mat 4 rows) k1 k2).
  assert (V : forall y, nd_get2 (Mat 4 rows) k1 k2 = Ok y -> exists v, y = Vec v).
  { intros y Y. cbn [nd_get2] in Y. destruct (resolve (length rows) k1); [cbn [bind] in Y | discriminate]. destruct (resolve 4 k2); [cbn [bind] in Y | discriminate].
    destruct H as [([(v & ->)|(v & ->)] & [[(w & ->)|(w & ->)]|(w & ->)])|((v & ->) & [(w & ->)|(w & ->)])]; cbn [advanced is_int andb] in Y;
      repeat match type of Y with (x <- ?g ;; _) = _ => destruct g; [cbn [bind] in Y | discriminate] end; injection Y as <-; eexists; reflexivity. }
  destruct (nd_get2 (Mat 4 rows) k1 k2) as [y|e]; [|reflexivity]. destruct (V y eq_refl) as (v & ->). unfold as_array, rmap, arr_of. cbn [bind dims elems app]. unfold newx. cbn [shape flat]. rewrite map_id, !andb_false_r.
  destruct (length (filter is_none its)) as [|n]; cbn [repeat Nat.eqb hd]; destruct (negb (Nat.eqb (length v) 0) && negb (Nat.eqb (length v) 4)); reflexivity.
Qed.
(** Colours, likewise: the selected records unchanged, of the shape numpy gives them (there is no reshape), or ValueError. *)
Theorem C243_color : forall rows p q k ps, Forall (fun r => length r = 2) rows -> ~ one_position k -> resolve (length rows) k = Ok ps ->
  let got := color_getx (Mat 2 rows) (nones p k q) in
  exists out, color_get (Mat 2 rows) k = Ok (Mat 2 out) /\
    (p = 0 /\ (q = 0 \/ length ps = 2 \/ length ps = 0) \/ p = 1 /\ length ps = 2 -> got = Ok (Arr (repeat 1 p ++ length out :: repeat 1 q ++ [2]) (concat out))) /\
    (p = 0 /\ 1 <= q /\ length ps <> 2 /\ length ps <> 0 \/ p = 1 /\ length ps <> 2 \/ 2 <= p -> got = Err ValueError).
Proof.
  intros rows p q k ps HR NO EP got. destruct (get_many 2 rows k ps NO EP) as (sel & E & LO). exists (map (map wrap32) sel). subst got. unfold color_getx, color_get. rewrite (shape_many 2 rows sel p k q HR NO E), E. cbn [bind].
  rewrite map_length, LO, <- concat_map. split.
  { unfold color_new, converter, to_plain. cbn [bind nd_map check_shape Nat.eqb negb]. rewrite andb_false_r. reflexivity. }
  assert (NEW : forall s, newx wrap32 2 (Arr s (concat sel)) = match s with
    | [] => Err IndexError
    | n :: rest => if negb (Nat.eqb n 0) && negb (Nat.eqb (if match rest with d :: _ => Nat.eqb d 1 | [] => true end then n else hd 0 rest) 2) then Err ValueError else Ok (Arr s (map wrap32 (concat sel))) end).
  { intros s. unfold newx. cbn [shape flat]. rewrite andb_false_r. destruct s as [|n rest]; [reflexivity|]. cbn zeta. destruct rest; reflexivity. }
  rewrite NEW. clear NEW. split.
  - intros [(-> & H)|(-> & H)]; cbn [repeat app].
    + destruct q as [|q]; cbn [repeat app hd]; [cbn [Nat.eqb negb]; rewrite andb_false_r; reflexivity|]. cbn [Nat.eqb]. destruct H as [H|[H|H]]; [discriminate| |]; rewrite H; reflexivity.
    + rewrite H. reflexivity.
  - intros [(-> & H1 & H4 & H0)|[(-> & H)|H]].
    + destruct q as [|q]; [lia|]. cbn [repeat app hd Nat.eqb]. apply Nat.eqb_neq in H4, H0. rewrite H4, H0. reflexivity.
    + cbn [repeat app hd]. destruct (Nat.eqb_spec (length ps) 1) as [E1|]; [reflexivity|]. apply Nat.eqb_neq in H. rewrite H. reflexivity.
    + destruct p as [|[|p]]; [lia|lia|]. reflexivity.
Qed.
Print Assumptions C242_one_axis.
Print Assumptions C242_two_axes.
Print Assumptions C242_rejects.
Print Assumptions C242_all_cases.
Print Assumptions C243_edges.
Print Assumptions C243_one_column.
Print Assumptions C243_momentum.
Print Assumptions C243_moved.
Print Assumptions C243_color.

Definition all4 : list (list nat) := [[1; 2; 3; 4]; [5; 6; 7; 8]].
Example C242_hyps : Forall (fun r => length r = 4) all4 /\ pmu_getx (Mat 4 all4) [IEll; IKey full] = as_array (pmu_get (Mat 4 all4) full) /\
  pmu_getx (Mat 4 all4) [IEll; IKey (KInt 0)] = Err ValueError /\ pmu_getx (Mat 4 all4) [IKey (KInt (-1)); IEll] = Ok (Arr [1; 4] [5; 6; 7; 8]) /\
  pmu_getx (Mat 4 all4) [IKey (KInt 0); IKey full; IKey full] = Err IndexError /\ pdg_getx (Vec [11; 22]%Z) [IEll; IEll] = Err IndexError /\ pdg_getx (Vec [11; 22]%Z) [IEll; IKey (KInt 1)] = Ok (Arr [1] [22]%Z).
Proof. split; [repeat constructor|]. repeat split; reflexivity. Qed.
Example C243_hyps : pdg_getx (Vec [11; 22]%Z) [INone; IKey full] = Err ValueError /\ pdg_getx (Vec [11; 22]%Z) [INone; INone; IKey full] = Ok (Arr [2] [11; 22]%Z) /\ pdg_getx (Vec [11; 22]%Z) [INone; IKey (KInt 1)] = Ok (Arr [1] [22]%Z) /\
  pmu_getx (Mat 4 all4) [INone; IKey full] = Err ValueError /\ pmu_getx (Mat 4 all4) [IKey full; INone] = Err ValueError /\ pmu_getx (Mat 4 all4) [IKey full; IEll; INone] = Ok (Arr [2; 4] [1; 2; 3; 4; 5; 6; 7; 8]) /\
  pmu_getx (Mat 4 all4) [INone; IKey (KInt 1)] = Ok (Arr [1; 4] [5; 6; 7; 8]) /\ pmu_getx (Mat 4 (all4 ++ all4)) [INone; IKey full] = Ok (Arr [4; 4] [1; 2; 3; 4; 5; 6; 7; 8; 1; 2; 3; 4; 5; 6; 7; 8]) /\
  pmu_getx (Mat 4 all4) [INone; INone; IKey (KInt 1); INone; IKey (KList [3; 2; 1; 0]%Z)] = Ok (Arr [1; 4] [8; 7; 6; 5]) /\
  adj_getx (Mat 2 [[0; 1]; [1; 2]]%Z) [INone; IKey (KMask [false; true]); INone] = Ok (Arr [1; 2] [1; 2]%Z) /\ adj_getx (Mat 2 [[0; 1]; [1; 2]]%Z) [INone; IKey full; INone; IKey (KInt 0)] = Ok (Arr [1; 2] [0; 1]%Z).
Proof. repeat split; reflexivity. Qed.
