(** Subscript keys accepted by the graphicle arrays and their numpy
    resolution to positions.  Used by every [__getitem__] in data.py
    (MaskArray 524-527, PdgArray 1178-1181, MomentumArray 1460-1463, ...), all of
    which evaluate [self._data[key]] with numpy. *)
From Verif Require Import Prelude.

(** Modelled keys: boolean mask (ndarray, MaskArray or the data of a
    MaskGroup), one integer, one integer ndarray, one slice.
    Tuples, [None] and [Ellipsis] are in TupleKeys.v and ExtKeys.v; not modelled: multi-dimensional key arrays. *)
Inductive key :=
| KMask (m : list bool)
| KInt (i : Z)
| KList (l : list Z)
| KSlice (lo hi st : option Z).

(** numpy: an index i is valid for length n when -n <= i < n; negative
    indices count from the end. *)
Definition norm_idx (n : nat) (i : Z) : res nat :=
  if ((- Z.of_nat n <=? i) && (i <? Z.of_nat n))%Z
  then Ok (Z.to_nat (if (i <? 0)%Z then i + Z.of_nat n else i)%Z)
  else Err IndexError.

(** CPython's [PySlice_AdjustIndices] for one bound. *)
Definition adjust (lower upper n : Z) (b : Z) : Z :=
  (if b <? 0 then Z.max (b + n) lower else Z.min b upper)%Z.

(** The elements of Python's [range(start, start + count * step, step)]. *)
Fixpoint zrange (start step : Z) (count : nat) : list Z :=
  match count with O => [] | S c => start :: zrange (start + step)%Z step c end.

(** [slice(lo, hi, st).indices(n)] expanded to the list of positions;
    a zero step is ValueError. *)
Definition slice_idx (n : nat) (lo hi st : option Z) : res (list Z) :=
  let step := match st with Some s => s | None => 1%Z end in
  let nz := Z.of_nat n in
  if (step =? 0)%Z then Err ValueError
  else if (0 <? step)%Z then
    let start := match lo with Some b => adjust 0 nz nz b | None => 0%Z end in
    let stop := match hi with Some b => adjust 0 nz nz b | None => nz end in
    Ok (zrange start step (if (start <? stop)%Z
                           then Z.to_nat ((stop - start - 1) / step + 1) else 0))
  else
    let start := match lo with Some b => adjust (-1) (nz - 1) nz b | None => (nz - 1)%Z end in
    let stop := match hi with Some b => adjust (-1) (nz - 1) nz b | None => (-1)%Z end in
    Ok (zrange start step (if (stop <? start)%Z
                           then Z.to_nat ((start - stop - 1) / (- step) + 1) else 0)).

(** Positions selected by a key in an array of length [n].
    numpy raises IndexError when a boolean key has another length. *)
Definition resolve (n : nat) (k : key) : res (list nat) :=
  match k with
  | KMask m => if Nat.eqb (length m) n then Ok (positions m) else Err IndexError
  | KInt i => p <- norm_idx n i ;; Ok [p]
  | KList l => mapM (norm_idx n) l
  | KSlice lo hi st => l <- slice_idx n lo hi st ;; Ok (map Z.to_nat l)
  end.

(** [array[key]] for the first axis. *)
Definition getkey {A} (l : list A) (k : key) : res (list A) :=
  ps <- resolve (length l) k ;; mapM (get l) ps.

(* ------------------------------------------------------------------ *)
Lemma norm_idx_lt n i p : norm_idx n i = Ok p -> p < n.
Proof.
  unfold norm_idx.
  destruct ((- Z.of_nat n <=? i) && (i <? Z.of_nat n))%Z eqn:E; [|discriminate].
  apply andb_prop in E as [E1 E2]. apply Z.leb_le in E1. apply Z.ltb_lt in E2.
  intros H; injection H as <-. destruct (Z.ltb_spec i 0); lia.
Qed.

Lemma zrange_In start step c x :
  In x (zrange start step c) -> exists j, (0 <= j < Z.of_nat c)%Z /\ (x = start + j * step)%Z.
Proof.
  revert start; induction c as [|c IH]; intros start; [intros []|].
  cbn [zrange]. intros [<-|H].
  - exists 0%Z; lia.
  - apply IH in H as (j & Hj & ->). exists (j + 1)%Z. split; lia.
Qed.

Lemma slice_idx_range n lo hi st l x :
  slice_idx n lo hi st = Ok l -> In x l -> (0 <= x < Z.of_nat n)%Z.
Proof.
  unfold slice_idx. set (step := match st with Some s => s | None => 1%Z end).
  destruct (Z.eqb_spec step 0) as [E|E]; [discriminate|].
  destruct (Z.ltb_spec 0 step) as [Hp|Hp]; intros H; injection H as <-; intros Hx;
    apply zrange_In in Hx as (j & Hj & ->).
  - set (start := match lo with Some b => adjust 0 (Z.of_nat n) (Z.of_nat n) b | None => 0%Z end) in *.
    set (stop := match hi with Some b => adjust 0 (Z.of_nat n) (Z.of_nat n) b | None => Z.of_nat n end) in *.
    assert (H0 : (0 <= start)%Z).
    { subst start; destruct lo as [b|]; [|lia]. unfold adjust. destruct (Z.ltb_spec b 0); lia. }
    assert (H1 : (stop <= Z.of_nat n)%Z).
    { subst stop; destruct hi as [b|]; [|lia]. unfold adjust. destruct (Z.ltb_spec b 0); lia. }
    destruct (Z.ltb_spec start stop) as [Hs|Hs]; [|simpl in Hj; lia].
    assert (Hq : (0 <= (stop - start - 1) / step)%Z) by (apply Z.div_pos; lia).
    rewrite Z2Nat.id in Hj by lia.
    assert (Hd : (j * step <= stop - start - 1)%Z).
    { assert (j <= (stop - start - 1) / step)%Z by lia.
      transitivity (((stop - start - 1) / step) * step)%Z; [nia|].
      rewrite Z.mul_comm. apply Z.mul_div_le; lia. }
    nia.
  - set (start := match lo with Some b => adjust (-1) (Z.of_nat n - 1) (Z.of_nat n) b | None => (Z.of_nat n - 1)%Z end) in *.
    set (stop := match hi with Some b => adjust (-1) (Z.of_nat n - 1) (Z.of_nat n) b | None => (-1)%Z end) in *.
    assert (H0 : (start <= Z.of_nat n - 1)%Z).
    { subst start; destruct lo as [b|]; [|lia]. unfold adjust. destruct (Z.ltb_spec b 0); lia. }
    assert (H1 : (-1 <= stop)%Z).
    { subst stop; destruct hi as [b|]; [|lia]. unfold adjust. destruct (Z.ltb_spec b 0); lia. }
    destruct (Z.ltb_spec stop start) as [Hs|Hs]; [|simpl in Hj; lia].
    assert (Hq : (0 <= (start - stop - 1) / (- step))%Z) by (apply Z.div_pos; lia).
    rewrite Z2Nat.id in Hj by lia.
    assert (Hd : (j * (- step) <= start - stop - 1)%Z).
    { assert (j <= (start - stop - 1) / (- step))%Z by lia.
      transitivity (((start - stop - 1) / (- step)) * (- step))%Z; [nia|].
      rewrite Z.mul_comm. apply Z.mul_div_le; lia. }
    nia.
Qed.

Lemma resolve_lt n k ps p : resolve n k = Ok ps -> In p ps -> p < n.
Proof.
  destruct k as [m|i|l|lo hi st]; simpl.
  - destruct (Nat.eqb_spec (length m) n) as [E|E]; [|discriminate].
    intros H; injection H as <-. rewrite positions_In. intros Hp.
    assert (p < length m) by (apply nth_error_Some; congruence). lia.
  - intros H; apply bind_ok in H as (q & Hq & H); injection H as <-.
    intros [<-|[]]. eapply norm_idx_lt; exact Hq.
  - intros H Hp. apply mapM_ok in H. induction H as [|i q l ps Hq H IH]; [destruct Hp|].
    destruct Hp as [<-|Hp]; [eapply norm_idx_lt; exact Hq | apply IH; exact Hp].
  - intros H; apply bind_ok in H as (l & Hl & H); injection H as <-.
    intros Hp. apply in_map_iff in Hp as (x & <- & Hx).
    pose proof (slice_idx_range n lo hi st l x Hl Hx). lia.
Qed.

(** Reading valid positions never fails. *)
Lemma mapM_get_ok {A} (l : list A) ps :
  (forall p, In p ps -> p < length l) ->
  exists r, mapM (get l) ps = Ok r /\ map Some r = map (nth_error l) ps.
Proof.
  induction ps as [|p ps IH]; intros H.
  - exists []; auto.
  - destruct IH as (r & Hr & Hm); [intros q Hq; apply H; right; exact Hq|].
    destruct (nth_error_in_range l p) as (x & Hx); [apply H; left; reflexivity|].
    exists (x :: r). split.
    + simpl. unfold get at 1. rewrite Hx. simpl. rewrite Hr. reflexivity.
    + simpl. rewrite Hx, Hm. reflexivity.
Qed.

Lemma mapM_get_map {A} (l : list A) ps r :
  mapM (get l) ps = Ok r <-> map Some r = map (nth_error l) ps.
Proof.
  rewrite mapM_ok. revert r; induction ps as [|p ps IH]; intros r; simpl.
  - split; intros H; [inversion H; reflexivity | destruct r; [constructor | discriminate]].
  - split.
    + intros H; inversion H as [|? x ? r' Hx Hr]; subst. apply IH in Hr. apply get_ok in Hx.
      simpl; congruence.
    + destruct r as [|x r]; simpl; [discriminate|]. intros H; injection H as Hx Hr.
      constructor; [apply get_ok; congruence | apply IH; exact Hr].
Qed.

Lemma getkey_ok {A} (l : list A) k r :
  getkey l k = Ok r <->
  exists ps, resolve (length l) k = Ok ps /\ map Some r = map (nth_error l) ps.
Proof.
  unfold getkey. rewrite bind_ok.
  split; intros (ps & H1 & H2); exists ps; split; auto; apply mapM_get_map; exact H2.
Qed.

(** A subscript fails exactly when the key does not resolve for the length. *)
Lemma getkey_resolve {A} (l : list A) k :
  match resolve (length l) k with
  | Ok ps => exists r, getkey l k = Ok r /\ map Some r = map (nth_error l) ps
  | Err e => getkey l k = Err e
  end.
Proof.
  unfold getkey. destruct (resolve (length l) k) as [ps|e] eqn:E; simpl; [|reflexivity].
  apply mapM_get_ok. intros p Hp. eapply resolve_lt; eauto.
Qed.

Lemma map_Some_inj {A} (l r : list A) : map Some l = map Some r -> l = r.
Proof.
  revert r; induction l as [|x l IH]; intros [|y r] H; simpl in *; try discriminate; auto.
  injection H as -> H. f_equal; auto.
Qed.

Lemma getkey_map {A B} (f : A -> B) l k : getkey (map f l) k = rmap (map f) (getkey l k).
Proof.
  pose proof (getkey_resolve l k) as H1. pose proof (getkey_resolve (map f l) k) as H2.
  rewrite map_length in H2. destruct (resolve (length l) k) as [ps|e].
  - destruct H1 as (r & -> & H1), H2 as (r' & -> & H2). simpl. f_equal.
    apply map_Some_inj. rewrite H2.
    transitivity (map (option_map f) (map Some r)); [|rewrite !map_map; reflexivity].
    rewrite H1, map_map. apply map_ext. intros p; apply nth_error_map'.
  - rewrite H1, H2. reflexivity.
Qed.

(** A boolean key of the right length is [compress]. *)
Lemma getkey_mask {A} (l : list A) m :
  length m = length l -> getkey l (KMask m) = Ok (compress m l).
Proof.
  intros H. apply getkey_ok. exists (positions m). split.
  - simpl. rewrite H, Nat.eqb_refl. reflexivity.
  - symmetry. apply compress_positions; exact H.
Qed.

Lemma getkey_length {A} (l : list A) k ps r :
  resolve (length l) k = Ok ps -> getkey l k = Ok r -> length r = length ps.
Proof.
  intros H1 H2. apply getkey_ok in H2 as (ps' & H3 & H4).
  assert (ps' = ps) by congruence; subst ps'.
  apply (f_equal (@length _)) in H4. rewrite !map_length in H4. exact H4.
Qed.

Lemma getkey_nth {A} (l : list A) k ps r j p :
  resolve (length l) k = Ok ps -> getkey l k = Ok r ->
  nth_error ps j = Some p -> nth_error r j = nth_error l p.
Proof.
  intros H1 H2 Hj. apply getkey_ok in H2 as (ps' & H3 & H4).
  assert (ps' = ps) by congruence; subst ps'.
  pose proof (f_equal (fun z => nth_error z j) H4) as H5. simpl in H5.
  rewrite !nth_error_map', Hj in H5. simpl in H5.
  destruct (nth_error r j); simpl in H5; congruence.
Qed.
