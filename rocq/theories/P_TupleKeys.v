(** C164: subscripts with two keys, [x[rows, columns]]. *)
From Verif Require Import Prelude Dict Keys MaskTypes SpecArray Arrays ArraysProofs TupleKeys.

(** Component [j] of the records at positions [ps], in order. *)
Definition components {A} (rows : list (list A)) (ps : list nat) (j : nat) (vals : list A) : Prop :=
  Forall2 (fun p v => exists r, nth_error rows p = Some r /\ nth_error r j = Some v) ps vals.
(** The records at positions [ps], with their components taken in the order [qs]. *)
Definition rearranged {A} (rows : list (list A)) (ps qs : list nat) (out : list (list A)) : Prop :=
  Forall2 (fun p r' => exists r, nth_error rows p = Some r /\ Forall2 (fun q v => nth_error r q = Some v) qs r') ps out.

(** Keys that are one integer, and keys that are arrays (boolean masks or lists of positions). *)
Definition one_position (k : key) : Prop := exists i, k = KInt i.
Definition array_key (k : key) : Prop := (exists m, k = KMask m) \/ (exists l, k = KList l).
Lemma is_int_spec k : ~ one_position k -> is_int k = false.
Proof. destruct k; try reflexivity. intros H. exfalso. apply H. eexists. reflexivity. Qed.
Lemma advanced_spec k : array_key k -> advanced k = true.
Proof. intros [(m & ->)|(l & ->)]; reflexivity. Qed.
Lemma advanced_not k1 k2 : ~ (array_key k1 /\ array_key k2) -> advanced k1 && advanced k2 = false.
Proof.
  intros H. destruct (advanced k1) eqn:E1; [|reflexivity]. destruct (advanced k2) eqn:E2; [|reflexivity]. exfalso. apply H.
  split; [destruct k1 | destruct k2]; try discriminate; [left | right | left | right]; eexists; reflexivity.
Qed.

Lemma mapM_get_ok {A} (l : list A) qs : (forall q, In q qs -> q < length l) -> exists out, mapM (get l) qs = Ok out /\ Forall2 (fun q v => nth_error l q = Some v) qs out.
Proof.
  induction qs as [|q qs IH]; intros H; [exists []; split; [reflexivity|constructor]|]. destruct IH as (out & E & F); [intros; apply H; right; assumption|].
  destruct (nth_error l q) as [v|] eqn:Ev; [|apply nth_error_None in Ev; specialize (H q (or_introl eq_refl)); lia].
  exists (v :: out). cbn [mapM]. unfold get at 1. rewrite Ev. cbn [bind]. rewrite E. split; [reflexivity | constructor; assumption].
Qed.
Lemma block_ok {A} c (rows : list (list A)) ps qs : Forall (fun r => length r = c) rows -> (forall p, In p ps -> p < length rows) -> (forall q, In q qs -> q < c) ->
  exists block, mapM (fun p => r <- get rows p ;; mapM (get r) qs) ps = Ok block /\ rearranged rows ps qs block.
Proof.
  intros HR HP HQ. induction ps as [|p ps IH]; [exists []; split; [reflexivity|constructor]|]. destruct IH as (block & E & F); [intros; apply HP; right; assumption|].
  destruct (nth_error rows p) as [r|] eqn:Er; [|apply nth_error_None in Er; specialize (HP p (or_introl eq_refl)); lia].
  rewrite Forall_forall in HR. assert (L : length r = c) by (apply HR; eapply nth_error_In, Er). destruct (mapM_get_ok r qs) as (out & Eo & Fo); [intros q I; rewrite L; auto|].
  exists (out :: block). cbn [mapM]. unfold get at 1. rewrite Er. cbn [bind]. rewrite Eo. cbn [bind]. rewrite E. split; [reflexivity|]. constructor; [|exact F]. exists r. auto.
Qed.
Lemma block_column {A} (rows : list (list A)) ps q block : rearranged rows ps [q] block -> components rows ps q (concat block) /\ length (concat block) = length ps.
Proof.
  induction 1 as [|p r' ps block (r & Er & F) _ (IH & L)]; [split; [constructor|reflexivity]|]. inversion F as [|? v ? ? Hv F2]; subst. inversion F2; subst. cbn.
  split; [constructor; [exists r; auto | exact IH] | f_equal; exact L].
Qed.
Lemma rearranged_len {A} (rows : list (list A)) ps qs block : rearranged rows ps qs block -> length block = length ps /\ Forall (fun r => length r = length qs) block.
Proof.
  induction 1 as [|p r' ps block (r & Er & F) _ (IH & L)]; [split; [reflexivity|constructor]|]. split; [cbn; congruence|]. constructor; [|exact L].
  clear - F. induction F; cbn; congruence.
Qed.
Lemma resolve_int n i ps : resolve n (KInt i) = Ok ps -> exists p, ps = [p] /\ norm_idx n i = Ok p.
Proof. cbn. destruct (norm_idx n i) as [p|]; [|discriminate]. intros E. injection E as <-. eauto. Qed.
Lemma column_get {A} c (rows : list (list A)) k i ps j : Forall (fun r => length r = c) rows -> is_int k = false ->
  resolve (length rows) k = Ok ps -> norm_idx c i = Ok j -> exists vals, nd_get2 (Mat c rows) k (KInt i) = Ok (Vec vals) /\ components rows ps j vals /\ length vals = length ps.
Proof.
  intros HR HK EP EJ. unfold nd_get2. rewrite EP. cbn [bind resolve]. rewrite EJ. cbn [bind advanced is_int]. rewrite andb_false_r, HK. cbn [andb].
  destruct (block_ok c rows ps [j] HR) as (block & E & F); [intros p I; eapply resolve_lt; eassumption | intros q [<-|[]]; eapply norm_idx_lt, EJ|].
  rewrite E. cbn [bind]. destruct (block_column rows ps j block F). eauto.
Qed.

(** ** One component of several records: [x[rows, i]] *)
(** Momenta: with four records the four values become one momentum; otherwise ValueError (empty if none is selected). *)
Theorem C164_momentum_column_partial : forall {A} (rows : list (list A)) k i ps j, Forall (fun r => length r = 4) rows -> ~ one_position k ->
  resolve (length rows) k = Ok ps -> norm_idx 4 i = Ok j ->
  (length ps = 4 -> exists vals, components rows ps j vals /\ pmu_get2 (Mat 4 rows) k (KInt i) = Ok (Mat 4 [vals])) /\
  (length ps = 0 -> pmu_get2 (Mat 4 rows) k (KInt i) = Ok (Mat 4 [])) /\
  (length ps <> 4 -> length ps <> 0 -> pmu_get2 (Mat 4 rows) k (KInt i) = Err ValueError).
Proof.
  intros A rows k i ps j HR HK EP EJ. apply is_int_spec in HK. destruct (column_get 4 rows k i ps j HR HK EP EJ) as (vals & E & C & L).
  unfold pmu_get2. rewrite E. cbn [bind]. unfold pmu_new, converter, to_plain. cbn [bind nd_map check_shape Nat.eqb]. rewrite map_id, L. split; [|split].
  - intros H. rewrite H. cbn [Nat.eqb negb andb bind]. exists vals. split; [exact C|]. rewrite H in L. destruct vals as [|a [|b [|d [|e [|]]]]]; try discriminate. reflexivity.
  - intros H. rewrite H. cbn [Nat.eqb negb andb bind]. rewrite H in L. destruct vals; [|discriminate]. reflexivity.
  - intros H4 H0. destruct (Nat.eqb_spec (length ps) 0); [contradiction|]. destruct (Nat.eqb_spec (length ps) 4); [contradiction|]. reflexivity.
Qed.

(** Edges: an even number of values is paired up into edges; an odd number is ValueError. *)
Theorem C164_edges_column_partial : forall (rows : list (list Z)) k i ps j, Forall (fun r => length r = 2) rows -> Forall (Forall fits32) rows -> ~ one_position k ->
  resolve (length rows) k = Ok ps -> norm_idx 2 i = Ok j ->
  (length ps mod 2 = 0 -> exists vals out, components rows ps j vals /\ adj_get2 (Mat 2 rows) k (KInt i) = Ok (Mat 2 out) /\ Forall (fun r => length r = 2) out /\ concat out = vals) /\
  (length ps mod 2 <> 0 -> adj_get2 (Mat 2 rows) k (KInt i) = Err ValueError).
Proof.
  intros rows k i ps j HR H32 HK EP EJ. apply is_int_spec in HK. destruct (column_get 2 rows k i ps j HR HK EP EJ) as (vals & E & C & L).
  unfold adj_get2. rewrite E. cbn [bind]. unfold reshape. cbn [elems]. rewrite L. split; intros H.
  - destruct (Nat.eqb_spec (length ps mod 2) 0); [|contradiction]. cbn [bind]. rewrite <- L. destruct (chunks_spec 2 (length vals) ltac:(lia) vals) as (F & E1); [lia | rewrite L; exact H|].
    exists vals, (chunks (length vals) 2 vals). split; [exact C|]. split; [|split; assumption].
    assert (W : map (map wrap32) (chunks (length vals) 2 vals) = chunks (length vals) 2 vals).
    { assert (FV : Forall fits32 vals). { clear - C H32. rewrite Forall_forall in H32. induction C as [|p v ps vals (r & Er & Ev) _ IH]; constructor; [|exact IH].
        assert (Q := H32 r (nth_error_In _ _ Er)). rewrite Forall_forall in Q. eapply Q, nth_error_In, Ev. }
      rewrite <- E1 in FV. revert FV. generalize (chunks (length vals) 2 vals). intros ch. clear. induction ch as [|x ch IH]; [reflexivity|]. cbn. intros FV.
      rewrite Forall_app in FV. destruct FV as (F1 & F2). rewrite (IH F2). f_equal. clear - F1. induction F1; [reflexivity|]. cbn. rewrite wrap32_id by assumption. congruence. }
    unfold adj_new, converter, to_plain. cbn [bind nd_map check_shape]. rewrite W. cbn [Nat.eqb negb andb]. rewrite andb_false_r. reflexivity.
  - destruct (Nat.eqb_spec (length ps mod 2) 0); [contradiction|]. reflexivity.
Qed.

(** Colours: accepted for two records (as one flat pair) or none. *)
Theorem C164_color_column_partial : forall (rows : list (list Z)) k i ps j, Forall (fun r => length r = 2) rows -> Forall (Forall fits32) rows -> ~ one_position k ->
  resolve (length rows) k = Ok ps -> norm_idx 2 i = Ok j ->
  (length ps = 2 \/ length ps = 0 -> exists vals, components rows ps j vals /\ color_get2 (Mat 2 rows) k (KInt i) = Ok (Vec vals)) /\
  (length ps <> 2 -> length ps <> 0 -> color_get2 (Mat 2 rows) k (KInt i) = Err ValueError).
Proof.
  intros rows k i ps j HR H32 HK EP EJ. apply is_int_spec in HK. destruct (column_get 2 rows k i ps j HR HK EP EJ) as (vals & E & C & L).
  assert (FV : Forall fits32 vals). { clear - C H32. rewrite Forall_forall in H32. induction C as [|p v ps vals (r & Er & Ev) _ IH]; constructor; [|exact IH].
    assert (Q := H32 r (nth_error_In _ _ Er)). rewrite Forall_forall in Q. eapply Q, nth_error_In, Ev. }
  assert (W : map wrap32 vals = vals). { clear - FV. induction FV; [reflexivity|]. cbn. rewrite wrap32_id by assumption. congruence. }
  unfold color_get2. rewrite E. cbn [bind]. unfold color_new, converter, to_plain. cbn [bind nd_map check_shape Nat.eqb]. rewrite W, L. split.
  - intros [H|H]; rewrite H; exists vals; split; auto.
  - intros H2 H0. destruct (Nat.eqb_spec (length ps) 0); [contradiction|]. destruct (Nat.eqb_spec (length ps) 2); [contradiction|]. reflexivity.
Qed.

(** ** Rows and columns: the records keep their identity only if all components are kept, in order *)
Theorem C164_momentum_block_partial : forall {A} (rows : list (list A)) k1 k2 ps qs, Forall (fun r => length r = 4) rows ->
  ~ one_position k1 -> ~ one_position k2 -> ~ (array_key k1 /\ array_key k2) ->
  resolve (length rows) k1 = Ok ps -> resolve 4 k2 = Ok qs ->
  (length qs = 4 -> exists out, rearranged rows ps qs out /\ pmu_get2 (Mat 4 rows) k1 k2 = Ok (Mat 4 out)) /\
  (qs = [0; 1; 2; 3] -> pmu_get2 (Mat 4 rows) k1 k2 = pmu_get (Mat 4 rows) k1) /\
  (length qs <> 4 -> length qs <> 1 -> length ps <> 0 -> pmu_get2 (Mat 4 rows) k1 k2 = Err ValueError).
Proof.
  intros A rows k1 k2 ps qs HR I1 I2 HA EP EQ. apply is_int_spec in I1, I2. apply advanced_not in HA. unfold pmu_get2, nd_get2. rewrite EP. cbn [bind]. rewrite EQ. cbn [bind]. rewrite HA, I1, I2. cbn [andb].
  destruct (block_ok 4 rows ps qs HR) as (block & E & F); [intros p I; eapply resolve_lt; eassumption | intros q I; eapply resolve_lt; eassumption|].
  rewrite E. cbn [bind]. destruct (rearranged_len rows ps qs block F) as (LB & FB).
  assert (NEW : length qs = 4 -> pmu_new (Plain (Mat (length qs) block)) = Ok (Mat 4 block)).
  { intros H. rewrite H in FB |- *. unfold pmu_new, converter, to_plain. cbn [bind nd_map check_shape Nat.eqb]. cbn [negb]. rewrite andb_false_r. cbn [bind].
    rewrite (map_ext _ (fun x => x)) by (intros; apply map_id). rewrite map_id. unfold reshape. cbn [elems].
    assert (LC : length (concat block) = 4 * length block). { clear - FB. induction FB as [|x r Hx _ IH]; [reflexivity|]. cbn [concat length]. rewrite app_length, IH, Hx. lia. }
    rewrite LC, Nat.mul_comm, Nat.mod_mul by lia. cbn [Nat.eqb]. rewrite chunks_concat; [reflexivity | lia | exact FB | lia]. }
  split; [|split].
  - intros H. exists block. split; [exact F | apply NEW, H].
  - intros ->. rewrite (NEW eq_refl). unfold pmu_get.
    assert (EK : nd_get (Mat 4 rows) k1 = Ok (Mat 4 block)).
    { assert (G : mapM (get rows) ps = Ok block).
      { clear - F HR. rewrite Forall_forall in HR. induction F as [|p r' ps block (r & Er & Fr) _ IH]; [reflexivity|]. cbn [mapM]. unfold get at 1. rewrite Er. cbn [bind]. rewrite IH. cbn [bind]. do 2 f_equal.
        assert (L := HR r (nth_error_In _ _ Er)). destruct r as [|a [|b [|c [|d [|]]]]]; try discriminate. repeat match goal with H : Forall2 _ (_ :: _) _ |- _ => inversion H; clear H; subst end.
        cbn in *. match goal with H : Forall2 _ [] _ |- _ => inversion H; subst end. congruence. }
      destruct k1; try discriminate; unfold nd_get, getkey; rewrite EP; cbn [bind]; rewrite G; reflexivity. }
    rewrite EK. cbn [bind]. symmetry. apply (NEW eq_refl).
  - intros H4 H1 H0. unfold pmu_new, converter, to_plain. cbn [bind nd_map check_shape]. destruct (Nat.eqb_spec (length qs) 1); [contradiction|].
    rewrite map_length, LB. destruct (Nat.eqb_spec (length ps) 0); [contradiction|]. destruct (Nat.eqb_spec (length qs) 4); [contradiction|]. reflexivity.
Qed.

(** ** Two masks or lists are paired, not crossed: one value per pair *)
Theorem C164_momentum_paired_partial : forall {A} (rows : list (list A)) k1 k2 ps qs, Forall (fun r => length r = 4) rows ->
  array_key k1 -> array_key k2 -> resolve (length rows) k1 = Ok ps -> resolve 4 k2 = Ok qs ->
  (length ps = 4 -> length qs = 4 -> exists vals, Forall2 (fun pq v => exists r, nth_error rows (fst pq) = Some r /\ nth_error r (snd pq) = Some v) (combine ps qs) vals /\
     pmu_get2 (Mat 4 rows) k1 k2 = Ok (Mat 4 [vals])) /\
  (length ps <> length qs -> length ps <> 1 -> length qs <> 1 -> pmu_get2 (Mat 4 rows) k1 k2 = Err IndexError) /\
  (length ps = length qs -> length ps <> 0 -> length ps <> 4 -> pmu_get2 (Mat 4 rows) k1 k2 = Err ValueError).
Proof.
  intros A rows k1 k2 ps qs HR A1 A2 EP EQ. apply advanced_spec in A1, A2. unfold pmu_get2, nd_get2. rewrite EP. cbn [bind]. rewrite EQ. cbn [bind]. rewrite A1, A2. cbn [andb].
  assert (G : exists vals, mapM (fun pq => r <- get rows (fst pq) ;; get r (snd pq)) (combine ps qs) = Ok vals /\
    Forall2 (fun pq v => exists r, nth_error rows (fst pq) = Some r /\ nth_error r (snd pq) = Some v) (combine ps qs) vals).
  { assert (HI : forall p q, In (p, q) (combine ps qs) -> p < length rows /\ q < 4).
    { intros p q I. split; [apply in_combine_l in I; eapply resolve_lt; eassumption | apply in_combine_r in I; eapply resolve_lt; eassumption]. }
    rewrite Forall_forall in HR. revert HI. generalize (combine ps qs). intros l. clear - HR. induction l as [|(p & q) l IH]; intros HI; [exists []; split; [reflexivity|constructor]|].
    destruct IH as (vals & E & F); [intros; apply HI; right; assumption|]. destruct (HI p q (or_introl eq_refl)) as (Hp & Hq).
    destruct (nth_error rows p) as [r|] eqn:Er; [|apply nth_error_None in Er; lia]. assert (L := HR r (nth_error_In _ _ Er)).
    destruct (nth_error r q) as [v|] eqn:Ev; [|apply nth_error_None in Ev; lia]. exists (v :: vals). cbn [mapM fst snd]. unfold get at 1. rewrite Er. cbn [bind]. unfold get at 1. rewrite Ev. cbn [bind].
    rewrite E. split; [reflexivity|]. constructor; [exists r; auto | exact F]. }
  destruct G as (vals & EV & FV). split; [|split].
  - intros L1 L2. unfold pair_up. rewrite L1, L2. cbn [Nat.eqb bind]. rewrite EV. cbn [bind]. exists vals. split; [exact FV|].
    assert (L : length vals = 4). { apply Forall2_length' in FV. rewrite <- FV, combine_length. lia. }
    destruct vals as [|a [|b [|d [|e [|]]]]]; try discriminate. reflexivity.
  - intros H H1 H2. unfold pair_up. destruct (Nat.eqb_spec (length ps) (length qs)); [contradiction|]. destruct ps as [|p [|p' ps]]; [| cbn in H1; lia |].
    + destruct qs as [|q [|q' qs]]; [contradiction | cbn in H2; lia | reflexivity].
    + destruct qs as [|q [|q' qs]]; [reflexivity | cbn in H2; lia | reflexivity].
  - intros H H0 H4. unfold pair_up. destruct (Nat.eqb_spec (length ps) (length qs)); [|contradiction]. cbn [bind]. rewrite EV. cbn [bind].
    assert (L : length vals = length ps). { apply Forall2_length' in FV. rewrite <- FV, combine_length. lia. }
    unfold pmu_new, converter, to_plain. cbn [bind nd_map check_shape Nat.eqb]. rewrite map_length, L. destruct (Nat.eqb_spec (length ps) 0); [contradiction|]. destruct (Nat.eqb_spec (length ps) 4); [contradiction|]. reflexivity.
Qed.
Print Assumptions C164_momentum_paired_partial.

(** A single position beside an array of positions is repeated: component [q] of the records [ps] (as with an integer), or components [qs] of record [p]. *)
Theorem C164_momentum_repeated_partial : forall {A} (rows : list (list A)) k1 k2 ps qs, Forall (fun r => length r = 4) rows ->
  array_key k1 -> array_key k2 -> resolve (length rows) k1 = Ok ps -> resolve 4 k2 = Ok qs ->
  (forall q, qs = [q] -> length ps = 4 -> exists vals, components rows ps q vals /\ pmu_get2 (Mat 4 rows) k1 k2 = Ok (Mat 4 [vals])) /\
  (forall p, ps = [p] -> length qs = 4 -> exists r vals, nth_error rows p = Some r /\ Forall2 (fun q v => nth_error r q = Some v) qs vals /\ pmu_get2 (Mat 4 rows) k1 k2 = Ok (Mat 4 [vals])).
Proof.
  intros A rows k1 k2 ps qs HR A1 A2 EP EQ. apply advanced_spec in A1, A2. unfold pmu_get2, nd_get2. rewrite EP. cbn [bind]. rewrite EQ. cbn [bind]. rewrite A1, A2. cbn [andb].
  rewrite Forall_forall in HR. assert (CELL : forall p q, In p ps -> In q qs -> exists r v, nth_error rows p = Some r /\ nth_error r q = Some v /\ (r <- get rows p ;; get r q) = Ok v).
  { intros p q Hp Hq. assert (Lp : p < length rows) by (eapply resolve_lt; eassumption). assert (Lq : q < 4) by (eapply resolve_lt; eassumption).
    destruct (nth_error rows p) as [r|] eqn:Er; [|apply nth_error_None in Er; lia]. assert (L := HR r (nth_error_In _ _ Er)).
    destruct (nth_error r q) as [v|] eqn:Ev; [|apply nth_error_None in Ev; lia]. exists r, v. unfold get at 1. rewrite Er. cbn [bind]. unfold get. rewrite Ev. auto. }
  assert (DONE : forall vals : list A, length vals = 4 -> pmu_new (Plain (Vec vals)) = Ok (Mat 4 [vals])).
  { intros vals L. destruct vals as [|a [|b [|c [|d [|]]]]]; try discriminate. reflexivity. }
  split.
  - intros q -> L. assert (EU : pair_up ps [q] = Ok (map (fun p => (p, q)) ps)) by (unfold pair_up; rewrite L; cbn [length Nat.eqb]; destruct ps as [|p [|p' ps']]; try discriminate; reflexivity).
    rewrite EU. cbn [bind].
    assert (G : exists vals, mapM (fun pq => r <- get rows (fst pq) ;; get r (snd pq)) (map (fun p => (p, q)) ps) = Ok vals /\ components rows ps q vals).
    { clear - CELL. induction ps as [|p ps IH]; [exists []; split; [reflexivity|constructor]|]. destruct IH as (vals & E & F); [intros; apply CELL; [right|]; assumption|].
      destruct (CELL p q (or_introl eq_refl) (or_introl eq_refl)) as (r & v & Er & Ev & Ec). exists (v :: vals). cbn [map mapM fst snd]. rewrite Ec. cbn [bind]. rewrite E. split; [reflexivity|]. constructor; [eauto | exact F]. }
    destruct G as (vals & E & F). rewrite E. cbn [bind]. exists vals. split; [exact F|]. apply DONE. apply Forall2_length' in F. congruence.
  - intros p -> L. assert (EU : pair_up [p] qs = Ok (map (fun q => (p, q)) qs)) by (unfold pair_up; rewrite L; reflexivity). rewrite EU. cbn [bind].
    destruct (CELL p) with (q := nth 0 qs 0) as (r & _ & Er & _); [left; reflexivity | apply nth_In; lia|].
    assert (G : exists vals, mapM (fun pq => r <- get rows (fst pq) ;; get r (snd pq)) (map (fun q => (p, q)) qs) = Ok vals /\ Forall2 (fun q v => nth_error r q = Some v) qs vals).
    { clear - CELL Er. induction qs as [|q qs IH]; [exists []; split; [reflexivity|constructor]|]. destruct IH as (vals & E & F); [intros; apply CELL; [|right]; assumption|].
      destruct (CELL p q (or_introl eq_refl) (or_introl eq_refl)) as (r' & v & Er' & Ev & Ec). rewrite Er in Er'. injection Er' as <-. exists (v :: vals). cbn [map mapM fst snd]. rewrite Ec. cbn [bind]. rewrite E. split; [reflexivity|]. constructor; assumption. }
    destruct G as (vals & E & F). rewrite E. cbn [bind]. exists r, vals. split; [exact Er|]. split; [exact F|]. apply DONE. apply Forall2_length' in F. congruence.
Qed.

(** ** Components of one record: [x[i, columns]], and one number: [x[i, j]] *)
Lemma row_get {A} c (rows : list (list A)) i k p qs : Forall (fun r => length r = c) rows -> is_int k = false ->
  norm_idx (length rows) i = Ok p -> resolve c k = Ok qs ->
  exists r vals, nth_error rows p = Some r /\ Forall2 (fun q v => nth_error r q = Some v) qs vals /\ nd_get2 (Mat c rows) (KInt i) k = Ok (Vec vals).
Proof.
  intros HR HK EP EQ. assert (Lp : p < length rows) by (eapply norm_idx_lt; eassumption). destruct (nth_error rows p) as [r|] eqn:Er; [|apply nth_error_None in Er; lia].
  rewrite Forall_forall in HR. assert (L := HR r (nth_error_In _ _ Er)). destruct (mapM_get_ok r qs) as (vals & E & F); [intros q Hq; rewrite L; eapply resolve_lt; eassumption|].
  exists r, vals. split; [reflexivity|]. split; [exact F|]. unfold nd_get2. cbn [resolve]. rewrite EP. cbn [bind]. rewrite EQ. cbn [bind advanced is_int andb]. rewrite HK. cbn [mapM]. unfold get at 1. rewrite Er. cbn [bind]. rewrite E. reflexivity.
Qed.
Theorem C164_one_record_partial : forall (rows : list (list Z)) i k p, Forall (Forall fits32) rows -> ~ one_position k -> norm_idx (length rows) i = Ok p ->
  (forall qs, Forall (fun r => length r = 4) rows -> resolve 4 k = Ok qs -> exists r vals, nth_error rows p = Some r /\ Forall2 (fun q v => nth_error r q = Some v) qs vals /\
     (length qs = 4 -> pmu_get2 (Mat 4 rows) (KInt i) k = Ok (Mat 4 [vals])) /\
     (length qs <> 4 -> length qs <> 0 -> pmu_get2 (Mat 4 rows) (KInt i) k = Err ValueError)) /\
  (forall qs, Forall (fun r => length r = 2) rows -> resolve 2 k = Ok qs -> exists r vals, nth_error rows p = Some r /\ Forall2 (fun q v => nth_error r q = Some v) qs vals /\
     (length qs = 2 -> color_get2 (Mat 2 rows) (KInt i) k = Ok (Vec vals) /\ adj_get2 (Mat 2 rows) (KInt i) k = Ok (Mat 2 [vals])) /\
     (length qs = 1 -> color_get2 (Mat 2 rows) (KInt i) k = Err ValueError /\ adj_get2 (Mat 2 rows) (KInt i) k = Err ValueError)).
Proof.
  intros rows i k p H32 HK EP. apply is_int_spec in HK. split; intros qs HR EQ.
  - destruct (row_get 4 rows i k p qs HR HK EP EQ) as (r & vals & Er & F & E). exists r, vals. split; [exact Er|]. split; [exact F|]. apply Forall2_length' in F. unfold pmu_get2. rewrite E. cbn [bind]. split.
    + intros L. rewrite L in F. destruct vals as [|a [|b [|c [|d [|]]]]]; try discriminate. reflexivity.
    + intros N4 N0. unfold pmu_new, converter, to_plain. cbn [bind nd_map check_shape Nat.eqb]. rewrite map_length, <- F. destruct (Nat.eqb_spec (length qs) 0); [contradiction|]. destruct (Nat.eqb_spec (length qs) 4); [contradiction|]. reflexivity.
  - destruct (row_get 2 rows i k p qs HR HK EP EQ) as (r & vals & Er & F & E). exists r, vals. split; [exact Er|]. split; [exact F|].
    assert (FV : Forall fits32 vals). { rewrite Forall_forall in H32. assert (Q := H32 r (nth_error_In _ _ Er)). rewrite Forall_forall in Q. clear - F Q. induction F as [|q v qs vals Ev _ IH]; constructor; [eapply Q, nth_error_In, Ev | exact IH]. }
    apply Forall2_length' in F. unfold color_get2, adj_get2. rewrite E. cbn [bind]. split; intros L; rewrite L in F.
    + destruct vals as [|a [|b [|]]]; try discriminate. inversion FV as [|? ? Fa Fv]; subst. inversion Fv as [|? ? Fb _]; subst. unfold color_new, adj_new, reshape, converter, to_plain. cbn. rewrite !wrap32_id by assumption. split; reflexivity.
    + destruct vals as [|a [|]]; try discriminate. split; reflexivity.
Qed.
Theorem C164_one_number_partial : forall (rows : list (list Z)) i j p q, norm_idx (length rows) i = Ok p ->
  (Forall (fun r => length r = 4) rows -> norm_idx 4 j = Ok q -> pmu_get2 (Mat 4 rows) (KInt i) (KInt j) = Err IndexError) /\
  (Forall (fun r => length r = 2) rows -> norm_idx 2 j = Ok q -> color_get2 (Mat 2 rows) (KInt i) (KInt j) = Err IndexError /\ adj_get2 (Mat 2 rows) (KInt i) (KInt j) = Err ValueError).
Proof.
  intros rows i j p q EP. assert (G : forall c, Forall (fun r => length r = c) rows -> norm_idx c j = Ok q -> exists a, nd_get2 (Mat c rows) (KInt i) (KInt j) = Ok (Sc a)).
  { intros c HR EJ. assert (Lp : p < length rows) by (eapply norm_idx_lt; eassumption). assert (Lq : q < c) by (eapply norm_idx_lt; eassumption). destruct (nth_error rows p) as [r|] eqn:Er; [|apply nth_error_None in Er; lia].
    rewrite Forall_forall in HR. assert (L := HR r (nth_error_In _ _ Er)). destruct (nth_error r q) as [v|] eqn:Ev; [|apply nth_error_None in Ev; lia]. exists v.
    unfold nd_get2. cbn [resolve]. rewrite EP. cbn [bind]. rewrite EJ. cbn [bind advanced is_int andb mapM]. unfold get at 1. rewrite Er. cbn [bind]. unfold get at 1. rewrite Ev. reflexivity. }
  split; intros HR EJ; destruct (G _ HR EJ) as (a & E); unfold pmu_get2, color_get2, adj_get2; rewrite E; [|split]; reflexivity.
Qed.

(** ** Arrays of one column reject two keys *)
Theorem C164_one_column : forall (l : list Z) (b : list bool) k1 k2,
  pdg_get2 (Vec l) k1 k2 = Err IndexError /\ helicity_get2 (Vec l) k1 k2 = Err IndexError /\ status_get2 (Vec l) k1 k2 = Err IndexError /\
  maskarr_get2 (Vec b) k1 k2 = Err IndexError.
Proof. intros. repeat split; reflexivity. Qed.

(** The expectation that a subscript returns records of the array fails. *)
Theorem C164_refuted :
  (exists (rows : list (list Z)) out r, Forall (fun r => length r = 4) rows /\ pmu_get2 (Mat 4 rows) (KSlice None None None) (KInt 0) = Ok (Mat 4 out) /\ In r out /\ ~ In r rows) /\
  (exists (rows : list (list Z)) out r, Forall (fun r => length r = 2) rows /\ adj_get2 (Mat 2 rows) (KSlice None None None) (KInt 1) = Ok (Mat 2 out) /\ In r out /\ ~ In r rows) /\
  (exists (rows : list (list Z)) out r, Forall (fun r => length r = 4) rows /\ pmu_get2 (Mat 4 rows) (KMask [true]) (KSlice None None (Some (-1)%Z)) = Ok (Mat 4 out) /\ In r out /\ ~ In r rows).
Proof.
  split; [|split].
  - exists [[1; 2; 3; 4]; [5; 6; 7; 8]; [9; 10; 11; 12]; [13; 14; 15; 16]]%Z, [[1; 5; 9; 13]]%Z, [1; 5; 9; 13]%Z. split; [repeat constructor|]. split; [reflexivity|]. split; [left; reflexivity|]. cbn. intuition congruence.
  - exists [[0; 5]; [1; 3]]%Z, [[5; 3]]%Z, [5; 3]%Z. split; [repeat constructor|]. split; [reflexivity|]. split; [left; reflexivity|]. cbn. intuition congruence.
  - exists [[1; 2; 3; 4]]%Z, [[4; 3; 2; 1]]%Z, [4; 3; 2; 1]%Z. split; [repeat constructor|]. split; [reflexivity|]. split; [left; reflexivity|]. cbn. intuition congruence.
Qed.

Example C164_case :
  pmu_get2 (Mat 4 [[1; 2; 3; 4]; [5; 6; 7; 8]]) (KSlice None None None) (KInt 3) = Err ValueError /\
  pmu_get2 (Mat 4 [[1; 2; 3; 4]; [5; 6; 7; 8]]) (KList [1; 0]%Z) (KSlice None None None) = Ok (Mat 4 [[5; 6; 7; 8]; [1; 2; 3; 4]]) /\
  pmu_get2 (Mat 4 [[1; 2; 3; 4]; [5; 6; 7; 8]]) (KInt 1) (KInt 0) = Err IndexError /\
  pmu_get2 (Mat 4 [[1; 2; 3; 4]; [5; 6; 7; 8]]) (KInt 1) (KSlice None None None) = Ok (Mat 4 [[5; 6; 7; 8]]) /\
  pmu_get2 (Mat 4 [[1; 2; 3; 4]; [5; 6; 7; 8]]) (KList [0; 0; 1; 1]%Z) (KList [0; 1; 2; 3]%Z) = Ok (Mat 4 [[1; 2; 7; 8]]) /\
  adj_get2 (Mat 2 [[0; 1]; [1; 2]; [1; 3]]%Z) (KSlice None None None) (KInt 0) = Err ValueError /\
  color_get2 (Mat 2 [[0; 1]; [1; 2]]%Z) (KSlice None None None) (KInt 0) = Ok (Vec [0; 1]%Z).
Proof. repeat split; reflexivity. Qed.

Print Assumptions C164_momentum_column_partial.
Print Assumptions C164_edges_column_partial.
Print Assumptions C164_color_column_partial.
Print Assumptions C164_momentum_block_partial.
Print Assumptions C164_one_column.
Print Assumptions C164_refuted.

Print Assumptions C164_momentum_repeated_partial.
Print Assumptions C164_one_record_partial.
Print Assumptions C164_one_number_partial.
