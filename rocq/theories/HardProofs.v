From Verif Require Import Prelude Dict Keys MaskTypes SpecMask Mask MaskProofs SpecArray SpecAdj Arrays ArraysProofs Composite SpecComposite CompositeProofs Adjacency AdjacencyProofs Descend DescendProofs SpecHard Hard.
From Coq Require DecimalFacts.

(** * Names *)

Lemma count_up_nth cnt names j nm : nth_error names j = Some nm ->
  nth_error (count_up cnt names) j =
  Some ((match dget nm cnt with Some c => c | None => 0 end) + count_occ string_dec (firstn j names) nm).
Proof.
  revert cnt j. induction names as [|n names IH]; intros cnt [|j] H; cbn in H; try discriminate.
  - injection H as ->. cbn. f_equal. lia.
  - cbn [count_up nth_error firstn count_occ]. rewrite (IH _ _ H). rewrite dget_dset. f_equal.
    destruct (String.eqb_spec nm n) as [->|Hn].
    + destruct (string_dec n n); [lia | congruence].
    + destruct (string_dec n nm); [congruence | lia].
Qed.
Lemma count_up_length cnt names : length (count_up cnt names) = length names.
Proof. revert cnt; induction names as [|n r IH]; intros cnt; cbn; auto. Qed.

Lemma zip3_nth {A B C D} (f : A -> B -> C -> D) x y z j :
  nth_error (zip3 f x y z) j =
  match nth_error x j, nth_error y j, nth_error z j with Some a, Some b, Some c => Some (f a b c) | _, _, _ => None end.
Proof.
  revert y z j; induction x as [|a x IH]; intros [|b y] [|c z] [|j]; cbn; auto;
    try (destruct (nth_error x j); reflexivity); try (destruct (nth_error x j), (nth_error y j); reflexivity).
Qed.
Lemma zip3_length {A B C D} (f : A -> B -> C -> D) x y z : length y = length x -> length z = length x -> length (zip3 f x y z) = length x.
Proof. revert y z; induction x as [|a x IH]; intros [|b y] [|c z] H1 H2; cbn in *; try discriminate; auto. Qed.

Lemma to_uint_inj a b : Nat.to_uint a = Nat.to_uint b -> a = b.
Proof. intros H. rewrite <- (DecimalNat.Unsigned.of_to a), <- (DecimalNat.Unsigned.of_to b), H. reflexivity. Qed.
Lemma decimal_inj a b : decimal a = decimal b -> a = b.
Proof.
  unfold decimal. intros H. apply to_uint_inj.
  assert (E : forall d, NilEmpty.uint_of_string (NilEmpty.string_of_uint d) = Some d) by apply NilEmpty.usu.
  pose proof (f_equal NilEmpty.uint_of_string H) as H'. rewrite !E in H'. congruence.
Qed.

Lemma colon_split a b x y : has_colon a = false -> has_colon b = false ->
  (a ++ ":" ++ x = b ++ ":" ++ y)%string -> a = b /\ x = y.
Proof.
  revert b; induction a as [|c a IH]; intros [|d b] Ha Hb H; cbn in *.
  - injection H; auto.
  - injection H as Hc _. subst d. cbn in Hb. discriminate.
  - injection H as Hc _. subst c. cbn in Ha. discriminate.
  - injection H as Hc H. apply orb_false_iff in Ha as [_ Ha]. apply orb_false_iff in Hb as [_ Hb].
    destruct (IH b Ha Hb H). subst; auto.
Qed.
Lemma colon_in a x : has_colon (a ++ ":" ++ x)%string = true.
Proof. induction a as [|c a IH]; cbn in *; [reflexivity | rewrite IH; apply orb_true_r]. Qed.

Lemma count_firstn_lt (names : list string) i j nm : i < j -> nth_error names i = Some nm ->
  count_occ string_dec (firstn i names) nm < count_occ string_dec (firstn j names) nm.
Proof.
  revert i j; induction names as [|n r IH]; intros i j Hij Hi; [destruct i; discriminate|].
  destruct j as [|j]; [lia|]. destruct i as [|i]; cbn [nth_error firstn count_occ] in *.
  - injection Hi as ->. destruct (string_dec nm nm); [lia | congruence].
  - assert (i < j) by lia. specialize (IH i j H Hi). destruct (string_dec n nm); lia.
Qed.

Definition key_at (names : list string) (j : nat) (nm : string) : string :=
  if Nat.eqb (count_occ string_dec names nm) 1 then nm
  else (nm ++ ":" ++ decimal (count_occ string_dec (firstn j names) nm))%string.

Lemma count_pos (names : list string) j nm : nth_error names j = Some nm -> 1 <= count_occ string_dec names nm.
Proof. intros H. apply count_occ_In. eapply nth_error_In; exact H. Qed.

Lemma keys_nth names j nm : nth_error names j = Some nm -> nth_error (pdgs_to_keys names) j = Some (key_at names j nm).
Proof.
  intros H. unfold pdgs_to_keys, key_at. pose proof (count_pos _ _ _ H) as HP.
  destruct (existsb (fun b => b) _) eqn:E; cbn [negb].
  - rewrite zip3_nth, map2_nth, nth_error_map', H, (count_up_nth _ _ _ _ H). cbn [option_map dget Nat.add].
    destruct (Nat.ltb_spec 1 (count_occ string_dec names nm)), (Nat.eqb_spec (count_occ string_dec names nm) 1); try lia; reflexivity.
  - destruct (Nat.eqb_spec (count_occ string_dec names nm) 1) as [_|Hn]; [exact H|].
    exfalso. assert (F : existsb (fun b => b) (map (fun n => 1 <? count_occ string_dec names n) names) = true); [|congruence].
    apply existsb_exists. exists true. split; [|reflexivity]. apply in_map_iff. exists nm.
    split; [apply Nat.ltb_lt; lia | eapply nth_error_In; exact H].
Qed.
Lemma keys_length names : length (pdgs_to_keys names) = length names.
Proof.
  unfold pdgs_to_keys. destruct (negb _); [reflexivity|].
  apply zip3_length; [rewrite map2_length, count_up_length, Nat.min_id; reflexivity | apply map_length].
Qed.

Lemma count_two (names : list string) i j nm : i <> j -> nth_error names i = Some nm -> nth_error names j = Some nm ->
  2 <= count_occ string_dec names nm.
Proof.
  intros Hn Hi Hj. assert (W : forall i j, i < j -> nth_error names i = Some nm -> nth_error names j = Some nm -> 2 <= count_occ string_dec names nm).
  { clear. intros i j Hij Hi Hj. pose proof (count_firstn_lt names i j nm Hij Hi).
    assert (S j <= length names) by (apply nth_error_Some; congruence).
    rewrite <- (firstn_skipn j names), count_occ_app.
    assert (1 <= count_occ string_dec (skipn j names) nm).
    { apply count_occ_In. apply nth_error_split in Hj as (l1 & l2 & -> & <-). rewrite skipn_app, skipn_all, Nat.sub_diag. left. reflexivity. }
    lia. }
  destruct (Nat.lt_ge_cases i j); [apply (W i j); auto | apply (W j i); auto; lia].
Qed.

Lemma keys_named names : Forall (fun s => has_colon s = false) names -> named names (pdgs_to_keys names).
Proof.
  intros HC. split; [apply keys_length|]. split; [|intros j nm H; apply keys_nth; exact H].
  apply NoDup_nth_error. intros i j Hi E. rewrite keys_length in Hi.
  destruct (nth_error_in_range names i Hi) as (a & Ha). rewrite (keys_nth _ _ _ Ha) in E.
  destruct (nth_error names j) as [b|] eqn:Hb.
  2:{ exfalso. apply nth_error_None in Hb. rewrite <- keys_length in Hb. apply nth_error_None in Hb. congruence. }
  rewrite (keys_nth _ _ _ Hb) in E. injection E as E.
  assert (Ca : has_colon a = false) by (exact (proj1 (Forall_nth_error _ _) HC i a Ha)).
  assert (Cb : has_colon b = false) by (exact (proj1 (Forall_nth_error _ _) HC j b Hb)).
  destruct (Nat.eq_dec i j) as [->|Hn]; [reflexivity|]. exfalso. unfold key_at in E.
  destruct (Nat.eqb_spec (count_occ string_dec names a) 1) as [Ea|Ea], (Nat.eqb_spec (count_occ string_dec names b) 1) as [Eb|Eb].
  - subst b. pose proof (count_two _ _ _ _ Hn Ha Hb). lia.
  - pose proof (colon_in b (decimal (count_occ string_dec (firstn j names) b))) as K. rewrite <- E in K. congruence.
  - pose proof (colon_in a (decimal (count_occ string_dec (firstn i names) a))) as K. rewrite E in K. congruence.
  - apply colon_split in E as [-> E]; auto. apply decimal_inj in E.
    destruct (Nat.lt_ge_cases i j).
    + pose proof (count_firstn_lt names i j b H Ha). lia.
    + assert (Hlt : j < i) by lia. pose proof (count_firstn_lt names j i b Hlt Hb). lia.
Qed.

(** * Rows *)

Lemma positions_map {A} (f : A -> bool) (d : A) l : positions (map f l) = filter (fun i => f (nth i l d)) (seq 0 (length l)).
Proof.
  induction l as [|x l IH]; [reflexivity|]. cbn [map length seq filter nth]. rewrite positions_cons, IH, <- seq_shift.
  rewrite (filter_map_comm S). destruct (f x); reflexivity.
Qed.

Lemma compress_rows {A} (m : list bool) (l : list A) (d : A) : length m = length l ->
  compress m l = map (fun i => nth i l d) (positions m).
Proof.
  intros H. apply map_Some_inj. rewrite <- (compress_positions m l H), map_map. apply map_ext_in.
  intros i Hi. apply positions_In in Hi. apply nth_error_nth'. rewrite <- H. apply nth_error_Some. congruence.
Qed.

Lemma hard_data status : Forall fits16 status -> data (hard_noninc status) = Ok (map hard_status status).
Proof.
  intros HF. unfold hard_noninc, hard_mask. cbn [ddel String.eqb Ascii.eqb Bool.eqb].
  cbn [data]. change (agg_op "or") with (@Ok aggop OR). cbn [bind mapM snd np_reduce forallb].
  cbn [data bind np_reduce forallb]. rewrite !map_length, Nat.eqb_refl. cbn [andb fold_left]. f_equal.
  induction HF as [|z l Hz HF IH]; [reflexivity|]. cbn [map map2]. rewrite IH. f_equal. unfold hard_status.
  rewrite !abs16_code by (assumption || lia).
  destruct (Z.eqb_spec 22 (Z.abs z)), (Z.eqb_spec 23 (Z.abs z)), (Z.eqb_spec 24 (Z.abs z)), (Z.leb_spec 22 (Z.abs z)), (Z.leb_spec (Z.abs z) 24); try reflexivity; lia.
Qed.

(** * Forcing the rows *)

Lemma dget_mid {A} pre k (v : A) post : ~ In k (dkeys pre) -> dget k (pre ++ (k, v) :: post) = Some v.
Proof.
  induction pre as [|[k' v'] pre IH]; cbn; intros H; [rewrite String.eqb_refl; reflexivity|].
  destruct (String.eqb_spec k k') as [->|Hn]; [exfalso; apply H; left; reflexivity|]. apply IH. intros F; apply H; right; exact F.
Qed.
Lemma dset_mid {A} pre k (v w : A) post : ~ In k (dkeys pre) -> dset k w (pre ++ (k, v) :: post) = pre ++ (k, w) :: post.
Proof.
  induction pre as [|[k' v'] pre IH]; cbn; intros H; [rewrite String.eqb_refl; reflexivity|].
  destruct (String.eqb_spec k k') as [->|Hn]; [exfalso; apply H; left; reflexivity|]. f_equal. apply IH. intros F; apply H; right; exact F.
Qed.

Definition forced (ds : list (list bool)) (rs : list nat) : list mask :=
  map2 (fun d r => MArr (set_nth d r true)) ds rs.

Lemma force_ok keys : forall ds rs pre n,
  NoDup (dkeys pre ++ keys) -> length ds = length keys -> length keys <= length rs ->
  Forall (fun d => length d = n) ds -> Forall (fun r => r < n) rs ->
  foldM (fun g p => set_bit g (fst p) (snd p)) (combine keys rs) (pre ++ combine keys (map MArr ds)) =
  Ok (pre ++ combine keys (forced ds rs)).
Proof.
  induction keys as [|k keys IH]; intros [|d ds] [|r rs] pre n ND HL HR HD Hr; cbn in *; try discriminate; try lia; auto.
  inversion HD as [|? ? Hd HD']; inversion Hr as [|? ? Hr0 Hr']; subst.
  assert (Hk : ~ In k (dkeys pre)).
  { intros F. apply NoDup_remove_2 in ND. apply ND. apply in_or_app. left; exact F. }
  assert (E : forall post, set_bit (pre ++ (k, MArr d) :: post) k r = Ok (pre ++ (k, MArr (set_nth d r true)) :: post)).
  { intros post. unfold set_bit. rewrite dget_mid by exact Hk. destruct (Nat.ltb_spec r (length d)) as [_|]; [|lia].
    rewrite dset_mid by exact Hk. reflexivity. }
  rewrite E. cbn [bind].
  specialize (IH ds rs (pre ++ [(k, MArr (set_nth d r true))]) (length d)).
  rewrite <- !app_assoc in IH. cbn [app] in IH. apply IH; auto; try lia.
  unfold dkeys. rewrite map_app. cbn. rewrite <- app_assoc. exact ND.
Qed.

(** * vertex_descendants as descends *)

Lemma src_dec es v : src_of es v \/ ~ src_of es v.
Proof.
  destruct (existsb (fun e : Z * Z => Z.eqb (fst e) v) es) eqn:E.
  - left. apply existsb_exists in E as ([a b] & H & E). apply Z.eqb_eq in E. cbn in E. subst. exists b; exact H.
  - right. intros (w & H). assert (F : existsb (fun e : Z * Z => Z.eqb (fst e) v) es = true); [|congruence].
    apply existsb_exists. exists (v, w). split; [exact H | apply Z.eqb_refl].
Qed.

Lemma desc_of_row es p a b m : nth_error es p = Some (a, b) -> vertex_descendants es b = Ok m ->
  length m = length es /\ forall i, nth_error m i = Some true <-> descends es p i.
Proof.
  intros Hp Hm. destruct (vertex_descendants_ok es b) as (m' & E & HL & H). assert (m' = m) by congruence. subst m'.
  split; [exact HL|]. intros i. split.
  - intros Hi. destruct (nth_error es i) as [[c d]|] eqn:Ei.
    2:{ apply nth_error_None in Ei. rewrite <- HL in Ei. apply nth_error_None in Ei. congruence. }
    destruct (H i c d Ei) as (x & Ex & H1 & H2). assert (x = true) by congruence. subst x.
    exists a, b, c, d. split; [exact Hp|]. split; [exact Ei|]. destruct (src_dec es b) as [S|S]; [left | right]; split; auto.
    + apply H1; auto.
    + apply H2; auto.
  - intros (a' & b' & c & d & Hp' & Hi & HD). assert (b' = b) by congruence. subst b'.
    destruct (H i c d Hi) as (x & Ex & H1 & H2). rewrite Ex. f_equal. destruct HD as [[S R]|[S R]]; [apply H1 | apply H2]; auto.
Qed.

(** * The common part of hard_descendants *)

Section HD.
  Context (name : Z -> string) (ev : event) (n : nat).
  Hypothesis Hok : event_ok n ev.
  Hypothesis Hname : forall z, has_colon (name z) = false.

  Lemma hd_len : length (map hard_status (e_status ev)) = n.
  Proof. rewrite map_length. apply Hok. Qed.
  Lemma hd_rows : positions (map hard_status (e_status ev)) = hard_rows ev.
  Proof. apply (positions_map hard_status 0%Z). Qed.
  Lemma hard_rows_lt r : In r (hard_rows ev) -> r < n.
  Proof. intros H. apply filter_In in H as [H _]. apply in_seq in H. destruct Hok as (_ & _ & E & _). lia. Qed.
  Lemma hard_pdg : getkey (e_pdg ev) (KMask (map hard_status (e_status ev))) = Ok (map (fun i => nth i (e_pdg ev) 0%Z) (hard_rows ev)).
  Proof.
    rewrite getkey_mask by (rewrite hd_len; symmetry; apply Hok).
    rewrite (compress_rows _ _ 0%Z) by (rewrite hd_len; symmetry; apply Hok). rewrite hd_rows. reflexivity.
  Qed.
  Lemma hard_edges : getkey (e_edges ev) (KMask (map hard_status (e_status ev))) = Ok (map (fun i => nth i (e_edges ev) (0, 0)%Z) (hard_rows ev)).
  Proof.
    rewrite getkey_mask by (rewrite hd_len; symmetry; apply Hok).
    rewrite (compress_rows _ _ (0, 0)%Z) by (rewrite hd_len; symmetry; apply Hok). rewrite hd_rows. reflexivity.
  Qed.

  (** The masks of the selected rows [sel], with the rows of the hard process forced. *)
  Lemma group_ok sel : (forall r, In r sel -> r < n) -> length sel <= length (hard_rows ev) ->
    let keys := pdgs_to_keys (map name (map (fun i => nth i (e_pdg ev) 0%Z) sel)) in
    exists descs kids,
      mapM (fun e => vertex_descendants (e_edges ev) (snd e)) (map (fun i => nth i (e_edges ev) (0, 0)%Z) sel) = Ok descs /\
      foldM (fun g p => set_bit g (fst p) (snd p)) (combine keys (positions (map hard_status (e_status ev)))) (dict_of (combine keys (map MArr descs))) = Ok kids /\
      named (map (fun i => name (nth i (e_pdg ev) 0%Z)) sel) (dkeys kids) /\
      forall j p r, nth_error sel j = Some p -> nth_error (hard_rows ev) j = Some r ->
        exists k m, nth_error kids j = Some (k, MArr m) /\ length m = n /\
          forall i, nth_error m i = Some true <-> i = r \/ descends (e_edges ev) p i.
  Proof.
    intros Hs HL keys. rewrite hd_rows.
    assert (HK : named (map (fun i => name (nth i (e_pdg ev) 0%Z)) sel) keys).
    { unfold keys. rewrite map_map. apply keys_named. apply Forall_forall. intros s H. apply in_map_iff in H as (i & <- & _). apply Hname. }
    destruct (proj2 (mapM_ok_all (fun e => vertex_descendants (e_edges ev) (snd e)) (map (fun i => nth i (e_edges ev) (0, 0)%Z) sel))) as (descs & HD).
    { intros e _. destruct (vertex_descendants_ok (e_edges ev) (snd e)) as (m & E & _). eauto. }
    pose proof (mapM_length _ _ _ HD) as LD. rewrite map_length in LD.
    destruct HK as (LK & NK & HK). assert (LK' : length keys = length sel) by (rewrite LK, map_length; reflexivity).
    assert (DN : Forall (fun d => length d = n) descs).
    { apply Forall_nth_error. intros j d Hj. pose proof (mapM_nth _ _ _ j HD) as HN. rewrite Hj in HN.
      destruct (nth_error (map (fun i => nth i (e_edges ev) (0, 0)%Z) sel) j) as [e|]; [|contradiction].
      destruct (vertex_descendants_ok (e_edges ev) (snd e)) as (m & E & L & _). destruct Hok as (LE & _). congruence. }
    exists descs, (combine keys (forced descs (hard_rows ev))). split; [exact HD|].
    assert (CK : dkeys (combine keys (map MArr descs)) = keys) by (apply combine_fst; rewrite map_length; congruence).
    split.
    { rewrite dict_of_NoDup by (rewrite CK; exact NK).
      apply (force_ok keys descs (hard_rows ev) [] n); auto; try lia.
      apply Forall_forall. apply hard_rows_lt. }
    assert (LF : length (forced descs (hard_rows ev)) = length keys) by (unfold forced; rewrite map2_length; lia).
    assert (CF : dkeys (combine keys (forced descs (hard_rows ev))) = keys) by (apply combine_fst; congruence).
    split; [rewrite CF; split; [exact LK|]; split; assumption|].
    intros j p r Hp Hr.
    destruct (nth_error_in_range keys j) as (k & Hk); [rewrite LK'; apply nth_error_Some; congruence|].
    destruct (nth_error_in_range descs j) as (d & Hd); [rewrite LD; apply nth_error_Some; congruence|].
    pose proof (mapM_nth _ _ _ j HD) as HN. rewrite Hd, nth_error_map', Hp in HN. cbn [option_map] in HN.
    assert (Pn : p < n) by (apply Hs; eapply nth_error_In; exact Hp).
    assert (Rn : r < n) by (apply hard_rows_lt; eapply nth_error_In; exact Hr).
    destruct (nth_error_in_range (e_edges ev) p) as ([a b] & He); [destruct Hok as (-> & _); exact Pn|].
    rewrite (nth_error_nth _ _ _ He) in HN. cbn [snd] in HN.
    destruct (desc_of_row _ _ _ _ _ He HN) as (Ld & Hdesc). destruct Hok as (LE & _).
    exists k, (set_nth d r true). split; [|split].
    - assert (C : forall (l : list string) (x : list mask) j a b, nth_error l j = Some a -> nth_error x j = Some b -> nth_error (combine l x) j = Some (a, b)).
      { clear. induction l as [|u l IH]; intros [|v x] [|j] a b H1 H2; cbn in *; try discriminate; [congruence | auto]. }
      apply C; [exact Hk|]. unfold forced. rewrite map2_nth, Hd, Hr. reflexivity.
    - rewrite set_nth_length. congruence.
    - intros i. rewrite set_nth_nth. destruct (Nat.eqb_spec r i) as [<-|Hn].
      + destruct (nth_error_in_range d r) as (x & ->); [lia|]. split; auto.
      + rewrite Hdesc. split; [auto|]. intros [->|H]; [congruence | exact H].
  Qed.

  Lemma hard_all : exists kids, hard_descendants name ev None false false = Ok (MGrp "or" kids) /\
    named (map (fun i => name (nth i (e_pdg ev) 0%Z)) (hard_rows ev)) (dkeys kids) /\
    forall j p, nth_error (hard_rows ev) j = Some p ->
      exists k m, nth_error kids j = Some (k, MArr m) /\ length m = n /\
        forall i, nth_error m i = Some true <-> i = p \/ descends (e_edges ev) p i.
  Proof.
    destruct (group_ok (hard_rows ev) hard_rows_lt (le_n _)) as (descs & kids & H1 & H2 & H3 & H4).
    exists kids. split; [|split; [exact H3|]].
    - unfold hard_descendants. rewrite hard_data by apply Hok. cbn [bind]. rewrite hard_pdg, hard_edges. cbn [bind fst snd].
      rewrite H1. cbn [bind]. rewrite H2. reflexivity.
    - intros j p Hj. apply (H4 j p p); exact Hj.
  Qed.

  (** ** With a target *)

  Lemma compress_map_filter {A B} (f : A -> bool) (h : A -> B) l : compress (map f l) (map h l) = map h (filter f l).
  Proof. induction l as [|x l IH]; [reflexivity|]. cbn. destruct (f x); cbn; rewrite IH; reflexivity. Qed.

  Lemma existsb_ext_In {A} (f g : A -> bool) l : (forall x, In x l -> f x = g x) -> existsb f l = existsb g l.
  Proof. induction l as [|x l IH]; cbn; intros H; [reflexivity|]. rewrite H by auto. rewrite IH by auto. reflexivity. Qed.
  Lemma existsb_map {A B} (f : B -> bool) (g : A -> B) l : existsb f (map g l) = existsb (fun x => f (g x)) l.
  Proof. induction l as [|x l IH]; cbn; congruence. Qed.

  Lemma abs32_code z c : fits32 z -> (0 <= c < 2 ^ 31)%Z -> (wrap32 (Z.abs z) =? c)%Z = (c =? Z.abs z)%Z.
  Proof.
    intros Hz Hc. destruct (Z.eq_dec z (- 2 ^ 31)) as [->|Hn].
    - replace (wrap32 (Z.abs (- 2 ^ 31))) with (- 2 ^ 31)%Z by reflexivity.
      replace (Z.abs (- 2 ^ 31)) with (2 ^ 31)%Z by reflexivity.
      destruct (Z.eqb_spec (- 2 ^ 31) c), (Z.eqb_spec c (2 ^ 31)); lia.
    - rewrite abs32 by assumption. apply Z.eqb_sym.
  Qed.


  Lemma target_mask_ok target (ss : bool) pdg : Forall target_ok target -> Forall fits32 pdg ->
    pdg_mask pdg (if ss then target else map Z.abs target) false ss = map (matches target ss) pdg.
  Proof.
    intros HT HP. unfold pdg_mask, isin.
    assert (W : map wrap32 (if ss then target else map Z.abs target) = if ss then target else map Z.abs target).
    { apply wrap32_list. destruct ss.
      - eapply Forall_impl; [|exact HT]. intros t [H _]; exact H.
      - apply Forall_forall. intros x Hx. apply in_map_iff in Hx as (t & <- & Ht). rewrite Forall_forall in HT.
        destruct (HT t Ht) as [H1 H2]. unfold fits32 in *. lia. }
    rewrite W. destruct ss.
    - apply map_ext. intros z. rewrite xorb_false_r. unfold matches. apply existsb_ext_In. intros t _. apply Z.eqb_sym.
    - rewrite map_map. apply map_ext_in. intros z Hz. rewrite xorb_false_r. unfold matches. rewrite existsb_map.
      apply existsb_ext_In. intros t Ht. rewrite Forall_forall in HT, HP. destruct (HT t Ht) as [H1 H2].
      apply abs32_code; [apply HP; exact Hz | unfold fits32 in *; lia].
  Qed.

  Definition rpdg (r : nat) : Z := nth r (e_pdg ev) 0%Z.
  Lemma rpdg_fits : Forall fits32 (map rpdg (hard_rows ev)).
  Proof.
    apply Forall_forall. intros z Hz. apply in_map_iff in Hz as (r & <- & Hr). apply hard_rows_lt in Hr.
    destruct Hok as (_ & LP & _ & _ & _ & HP). rewrite Forall_forall in HP. apply HP. apply nth_In. lia.
  Qed.

  Lemma selected_eq target ss : map snd (filter (fun p => fst p) (combine (map (matches target ss) (map rpdg (hard_rows ev))) (hard_rows ev))) = selected_rows ev target ss.
  Proof. unfold selected_rows. induction (hard_rows ev) as [|r l IH]; [reflexivity|]. cbn. fold (rpdg r). destruct (matches target ss (rpdg r)); cbn; rewrite IH; reflexivity. Qed.

  Lemma any_selected target ss : existsb (fun b => b) (map (matches target ss) (map rpdg (hard_rows ev))) = negb (Nat.eqb (length (selected_rows ev target ss)) 0).
  Proof.
    unfold selected_rows. induction (hard_rows ev) as [|r l IH]; [reflexivity|]. cbn. fold (rpdg r).
    destruct (matches target ss (rpdg r)); cbn; [reflexivity | exact IH].
  Qed.

  Lemma hard_target target (ss strict : bool) : Forall target_ok target ->
    (selected_rows ev target ss = [] \/ (strict = true /\ exists t, In t target /\ selected_rows ev [t] ss = []) ->
       hard_descendants name ev (Some target) ss strict = Err ValueError) /\
    (~ (selected_rows ev target ss = [] \/ (strict = true /\ exists t, In t target /\ selected_rows ev [t] ss = [])) ->
       exists kids, hard_descendants name ev (Some target) ss strict = Ok (MGrp "or" kids) /\
         named (map (fun i => name (nth i (e_pdg ev) 0%Z)) (selected_rows ev target ss)) (dkeys kids) /\
         forall j p r, nth_error (selected_rows ev target ss) j = Some p -> nth_error (hard_rows ev) j = Some r ->
           exists k m, nth_error kids j = Some (k, MArr m) /\ length m = n /\
             forall i, nth_error m i = Some true <-> i = r \/ descends (e_edges ev) p i).
  Proof.
    intros HT. unfold hard_descendants. rewrite hard_data by apply Hok. cbn [bind]. rewrite hard_pdg, hard_edges. cbn [bind].
    fold rpdg. rewrite target_mask_ok by (exact HT || exact rpdg_fits).
    rewrite any_selected. destruct (Nat.eqb_spec (length (selected_rows ev target ss)) 0) as [E0|E0]; cbn [negb].
    { apply length_zero_iff_nil in E0. split; [intros _; reflexivity | intros H; exfalso; apply H; left; exact E0]. }
    rewrite !getkey_mask by (rewrite !map_length; reflexivity). cbn [bind].
    rewrite (map_map rpdg (matches target ss)).
    rewrite !compress_map_filter. 
    assert (SE : filter (fun x => matches target ss (rpdg x)) (hard_rows ev) = selected_rows ev target ss) by reflexivity.
    rewrite !SE.
    set (found := if ss then _ else _).
    set (want := if ss then target else map Z.abs target).
    assert (M : (length (filter (fun z => negb (existsb (Z.eqb z) found)) want) = 0) <-> forall t, In t target -> selected_rows ev [t] ss <> []).
    { rewrite filter_none. 
      assert (Q : forall t, In t target -> existsb (Z.eqb (if ss then t else Z.abs t)) found = negb (Nat.eqb (length (selected_rows ev [t] ss)) 0)).
      { intros t Ht. assert (Tt : target_ok t) by (rewrite Forall_forall in HT; auto).
        assert (FE : existsb (Z.eqb (if ss then t else Z.abs t)) found = existsb (fun r => matches [t] ss (rpdg r)) (selected_rows ev target ss)).
        { unfold found. destruct ss; rewrite ?map_map, existsb_map; apply existsb_ext_In; intros r Hr; unfold matches; cbn [existsb]; rewrite orb_false_r; fold (rpdg r).
          - reflexivity.
          - rewrite Z.eqb_sym. apply abs32_code; [|destruct Tt; unfold fits32 in *; lia].
            pose proof rpdg_fits as RF. rewrite Forall_forall in RF. apply RF. apply in_map. apply filter_In in Hr as [Hr _]. exact Hr. }
        rewrite FE. apply eq_true_iff_eq. rewrite existsb_exists, negb_true_iff, Nat.eqb_neq. split.
        - intros (r & Hr & Hm). intros L. apply length_zero_iff_nil in L. assert (F : In r []); [|exact F]. rewrite <- L.
          apply filter_In. apply filter_In in Hr as [Hr _]. auto.
        - intros L. destruct (selected_rows ev [t] ss) as [|r l] eqn:Er; [cbn in L; congruence|].
          assert (Hr : In r (selected_rows ev [t] ss)) by (rewrite Er; left; reflexivity). apply filter_In in Hr as [Hr Hm].
          exists r. split; [|exact Hm]. apply filter_In. split; [exact Hr|]. unfold matches in *. apply existsb_exists. exists t. split; [exact Ht|].
          cbn in Hm. rewrite orb_false_r in Hm. exact Hm. }
      split.
      - intros H t Ht E. specialize (H (if ss then t else Z.abs t)). rewrite (Q t Ht) in H. rewrite E in H. cbn in H.
        assert (true = false); [|discriminate]. apply H. unfold want. destruct ss; [exact Ht | apply in_map; exact Ht].
      - intros H x Hx. assert (exists t, In t target /\ x = if ss then t else Z.abs t) as (t & Ht & ->).
        { unfold want in Hx. destruct ss; [eauto|]. apply in_map_iff in Hx as (t & <- & Ht). eauto. }
        rewrite (Q t Ht). rewrite negb_involutive. apply Nat.eqb_neq. intros L. apply length_zero_iff_nil in L. exact (H t Ht L). }
    assert (S0 : selected_rows ev target ss <> []) by (intros E; rewrite E in E0; apply E0; reflexivity).
    destruct (strict && negb (Nat.eqb (length (filter (fun z => negb (existsb (Z.eqb z) found)) want)) 0)) eqn:EM.
    - apply andb_true_iff in EM as [Es EM]. apply negb_true_iff, Nat.eqb_neq in EM. split; [reflexivity|].
      intros H. exfalso. apply EM. apply M. intros t Ht Et. apply H. right. split; [exact Es|]. eauto.
    - split.
      + intros [F|(Es & t & Ht & Et)]; [contradiction|]. subst strict. cbn [andb] in EM. apply negb_false_iff, Nat.eqb_eq in EM.
        exfalso. exact (proj1 M EM t Ht Et).
      + intros _. cbn [bind fst snd].
        destruct (group_ok (selected_rows ev target ss)) as (descs & kids & H1 & H2 & H3 & H4).
        { intros r Hr. apply filter_In in Hr as [Hr _]. apply hard_rows_lt; exact Hr. }
        { unfold selected_rows. clear. induction (hard_rows ev) as [|r l IH]; [apply le_n|]. cbn. destruct (matches _ _ _); cbn; lia. }
        exists kids. fold rpdg in H2. rewrite H1. cbn [bind]. rewrite H2. split; [reflexivity|]. split; [exact H3 | exact H4].
  Qed.
End HD.
