(** Ownership argument for Memory.v: every object and buffer belongs to one of two sides. *)
From Verif Require Import Prelude Keys SpecMemory Memory.

Section MP.
Context {T : Type}.
Notation st := (st T).
Implicit Types s : st.

Definition kids_of (ob : obj) : list nat := match ob with OSet kids => kids | OGraph p a => [p; a] | _ => [] end.
Definition buf_of (ob : obj) : option nat := match ob with ONd _ b _ _ | OArr _ b _ _ => Some b | _ => None end.

(** [co], [cb]: the side owning each object and each buffer. *)
Definition owned s (co cb : nat -> bool) : Prop := forall o ob, nth_error (objs s) o = Some ob ->
  (forall b, buf_of ob = Some b -> b < length (bufs s) /\ cb b = co o) /\
  (forall k, In k (kids_of ob) -> k < length (objs s) /\ co k = co o).

Definition names s (co : nat -> bool) (d : bool) (env : list nat) : Prop := forall o, In o env -> o < length (objs s) /\ co o = d.

(** What side [d] may do: extend the memory, change its own part. *)
Record ext (d : bool) s co cb s' co' cb' : Prop := mkExt {
  x_owned : owned s' co' cb';
  x_lo : length (objs s) <= length (objs s');
  x_lb : length (bufs s) <= length (bufs s');
  x_co : forall o, o < length (objs s) -> co' o = co o;
  x_cb : forall b, b < length (bufs s) -> cb' b = cb b;
  x_no : forall o, length (objs s) <= o < length (objs s') -> co' o = d;
  x_objs : forall o, o < length (objs s) -> co o <> d -> nth_error (objs s') o = nth_error (objs s) o;
  x_bufs : forall b, b < length (bufs s) -> cb b <> d -> nth_error (bufs s') b = nth_error (bufs s) b }.

Lemma ext_refl d s co cb : owned s co cb -> ext d s co cb s co cb.
Proof. intros H. split; auto; intros; lia. Qed.
Lemma ext_trans d s1 co1 cb1 s2 co2 cb2 s3 co3 cb3 : ext d s1 co1 cb1 s2 co2 cb2 -> ext d s2 co2 cb2 s3 co3 cb3 -> ext d s1 co1 cb1 s3 co3 cb3.
Proof.
  intros A B. pose proof (x_lo _ _ _ _ _ _ _ A). pose proof (x_lb _ _ _ _ _ _ _ A). pose proof (x_lo _ _ _ _ _ _ _ B). pose proof (x_lb _ _ _ _ _ _ _ B).
  split; try lia.
  - apply (x_owned _ _ _ _ _ _ _ B).
  - intros o Ho. rewrite (x_co _ _ _ _ _ _ _ B), (x_co _ _ _ _ _ _ _ A) by lia. reflexivity.
  - intros b Hb. rewrite (x_cb _ _ _ _ _ _ _ B), (x_cb _ _ _ _ _ _ _ A) by lia. reflexivity.
  - intros o Ho. destruct (Nat.lt_ge_cases o (length (objs s2))).
    + rewrite (x_co _ _ _ _ _ _ _ B) by lia. apply (x_no _ _ _ _ _ _ _ A). lia.
    + apply (x_no _ _ _ _ _ _ _ B). lia.
  - intros o Ho Hc. rewrite (x_objs _ _ _ _ _ _ _ B), (x_objs _ _ _ _ _ _ _ A); auto; [lia|]. rewrite (x_co _ _ _ _ _ _ _ A); auto.
  - intros b Hb Hc. rewrite (x_bufs _ _ _ _ _ _ _ B), (x_bufs _ _ _ _ _ _ _ A); auto; [lia|]. rewrite (x_cb _ _ _ _ _ _ _ A); auto.
Qed.
Lemma names_ext d e s co cb s' co' cb' env : ext d s co cb s' co' cb' -> names s co e env -> names s' co' e env.
Proof.
  intros X H o Ho. destruct (H o Ho) as (A & B). pose proof (x_lo _ _ _ _ _ _ _ X). split; [lia|]. rewrite (x_co _ _ _ _ _ _ _ X); auto.
Qed.

Definition upd (f : nat -> bool) (n : nat) (d : bool) (i : nat) : bool := if i <? n then f i else d.
Lemma upd_lt f n d i : i < n -> upd f n d i = f i.
Proof. intros H. unfold upd. apply Nat.ltb_lt in H. rewrite H. reflexivity. Qed.
Lemma upd_ge f n d i : n <= i -> upd f n d i = d.
Proof. intros H. unfold upd. apply Nat.ltb_ge in H. rewrite H. reflexivity. Qed.
Lemma nth_error_snoc {A} (l : list A) (x y : A) i : nth_error (l ++ [x]) i = Some y -> (i < length l /\ nth_error l i = Some y) \/ (i = length l /\ y = x).
Proof.
  intros H. destruct (Nat.lt_ge_cases i (length l)) as [L|L].
  - left. rewrite nth_error_app1 in H by lia. auto.
  - right. rewrite nth_error_app2 in H by lia. destruct (i - length l) as [|j] eqn:E; cbn in H; [|destruct j; discriminate]. injection H as <-. split; [lia|reflexivity].
Qed.

Lemma new_buf_ext d s co cb l : owned s co cb -> let '(s', b) := new_buf s l in
  exists cb', ext d s co cb s' co cb' /\ b < length (bufs s') /\ cb' b = d.
Proof.
  intros H. cbn. exists (upd cb (length (bufs s)) d). split; [|split].
  - split; cbn; rewrite ?app_length; cbn; try lia; auto.
    + intros o ob Ho. destruct (H o ob Ho) as (A & B). split; [|exact B]. intros b Hb. cbn in *. rewrite app_length. cbn. destruct (A b Hb). split; [lia|]. rewrite upd_lt by lia. auto.
    + intros b Hb. apply upd_lt. exact Hb.
    + intros b Hb _. apply nth_error_app1. exact Hb.
  - cbn. rewrite app_length. cbn. lia.
  - apply upd_ge. lia.
Qed.
Lemma new_obj_ext d s co cb ob : owned s co cb ->
  (forall b, buf_of ob = Some b -> b < length (bufs s) /\ cb b = d) -> (forall k, In k (kids_of ob) -> k < length (objs s) /\ co k = d) ->
  let '(s', o) := new_obj s ob in exists co', ext d s co cb s' co' cb /\ o < length (objs s') /\ co' o = d.
Proof.
  intros H HB HK. cbn. exists (upd co (length (objs s)) d). split; [|split].
  - split; cbn; rewrite ?app_length; cbn; try lia; auto.
    + intros o ob' Ho. cbn in *. apply nth_error_snoc in Ho as [(L & Ho)|(-> & ->)].
      * destruct (H o ob' Ho) as (A & B). rewrite upd_lt by exact L. split; [exact A|]. intros k Hk. destruct (B k Hk). rewrite app_length. cbn. split; [lia|]. rewrite upd_lt by lia. auto.
      * rewrite upd_ge by lia. split; [exact HB|]. intros k Hk. destruct (HK k Hk). rewrite app_length. cbn. split; [lia|]. rewrite upd_lt by lia. auto.
    + intros o Ho. apply upd_lt. exact Ho.
    + intros o Ho. apply upd_ge. lia.
    + intros o Ho _. apply nth_error_app1. exact Ho.
  - cbn. rewrite app_length. cbn. lia.
  - apply upd_ge. lia.
Qed.

(** A computation of side [d] that returns an object of side [d]. *)
Definition safe d s co cb (r : hres (T:=T) nat) : Prop :=
  exists co' cb', ext d s co cb (fst r) co' cb' /\ (forall o, snd r = Ok o -> o < length (objs (fst r)) /\ co' o = d).
Lemma safe_ext d s co cb s1 co1 cb1 r : ext d s co cb s1 co1 cb1 -> safe d s1 co1 cb1 r -> safe d s co cb r.
Proof. intros X (co' & cb' & Y & Z). exists co', cb'. split; [eapply ext_trans; eauto | exact Z]. Qed.
Lemma safe_err d s co cb e : owned s co cb -> safe d s co cb (s, Err e).
Proof. intros H. exists co, cb. split; [apply ext_refl, H | discriminate]. Qed.
Lemma safe_new d s co cb ob : owned s co cb ->
  (forall b, buf_of ob = Some b -> b < length (bufs s) /\ cb b = d) -> (forall k, In k (kids_of ob) -> k < length (objs s) /\ co k = d) ->
  safe d s co cb (let (s', o) := new_obj s ob in (s', Ok o)).
Proof.
  intros H HB HK. pose proof (new_obj_ext d s co cb ob H HB HK) as N. destruct (new_obj s ob) as (s', o). destruct N as (co' & X & A & B).
  exists co', cb. split; [exact X|]. cbn. intros o' E. injection E as <-. auto.
Qed.
Lemma safe_fresh d s co cb c l : owned s co cb -> safe d s co cb (let (s', o) := fresh s c l in (s', Ok o)).
Proof.
  intros H. unfold fresh. pose proof (new_buf_ext d s co cb l H) as N. destruct (new_buf s l) as (s1, b). destruct N as (cb1 & X & A & B).
  assert (S := safe_new d s1 co cb1 (OArr c b 0 (length l)) (x_owned _ _ _ _ _ _ _ X)).
  destruct (new_obj s1 (OArr c b 0 (length l))) as (s2, o). eapply safe_ext; [exact X|]. apply S.
  - cbn. intros b' E. injection E as <-. auto.
  - intros k [].
Qed.

(** The two array methods: called on an object of side [e], they make an object of side [d]. *)
Definition method d e (f : st -> cls -> nat -> nat -> nat -> hres (T:=T) nat) : Prop :=
  forall s co cb c b off n, owned s co cb -> b < length (bufs s) -> cb b = e -> safe d s co cb (f s c b off n).
Lemma select_method d k : method d d (fun s c b off n => select s c b off n k).
Proof.
  intros s co cb c b off n H L B. unfold select. destruct (resolve n k) as [ps|e]; [|apply safe_err, H].
  destruct (mapM _ ps) as [l|e]; [|apply safe_err, H].
  assert (V : safe d s co cb (let (s1, o) := new_obj s (OArr c b (off + hd 0 ps) (length ps)) in (s1, Ok o))).
  { apply safe_new; [exact H| |intros k' []]. cbn. intros b' E. injection E as <-. auto. }
  assert (F := safe_fresh d s co cb c l H).
  destruct k; auto; [destruct (two_dim c) | destruct (contiguous ps)]; auto.
Qed.
Lemma copy_method d e : method d e copy_arr.
Proof. intros s co cb c b off n H L B. unfold copy_arr. apply safe_fresh, H. Qed.

Lemma select_copies d e k : match k with KMask _ | KList _ => True | _ => False end -> method d e (fun s c b off n => select s c b off n k).
Proof.
  intros HK s co cb c b off n H L B. unfold select. destruct (resolve n k) as [ps|er]; [|apply safe_err, H].
  destruct (mapM _ ps) as [l|er]; [|apply safe_err, H]. assert (F := safe_fresh d s co cb c l H). destruct k; try contradiction; exact F.
Qed.

Section Method.
Variable d e : bool.
Variable f : st -> cls -> nat -> nat -> nat -> hres (T:=T) nat.
Hypothesis Hf : method d e f.
Lemma component_safe s co cb c o : owned s co cb -> co o = e -> safe d s co cb (component f s c o).
Proof.
  intros H Hd. unfold component. destruct (nonempty1 s o); [|apply safe_fresh, H]. unfold on_arr. destruct (nth_error (objs s) o) as [ob|] eqn:E; [|apply safe_err, H].
  destruct ob; try (apply safe_err, H). destruct (H o _ E) as (A & _). destruct (A b eq_refl). apply Hf; auto. congruence.
Qed.
Lemma components_safe cs : forall s co cb kids, owned s co cb -> (forall k, In k kids -> k < length (objs s) /\ co k = e) ->
  exists co' cb', ext d s co cb (fst (components f s cs kids)) co' cb' /\
    (forall os, snd (components f s cs kids) = Ok os -> forall k, In k os -> k < length (objs (fst (components f s cs kids))) /\ co' k = d).
Proof.
  induction cs as [|c cs IH]; intros s co cb kids H HK; cbn.
  - exists co, cb. split; [apply ext_refl, H|]. cbn. intros os E. injection E as <-. intros k [].
  - destruct kids as [|o kids]; [exists co, cb; split; [apply ext_refl, H|]; cbn; intros os E; injection E as <-; intros k []|].
    destruct (HK o (or_introl eq_refl)) as (Lo & Co). destruct (component_safe s co cb c o H Co) as (co1 & cb1 & X & N).
    destruct (component f s c o) as (s1, r). cbn in X, N. destruct r as [o'|er].
    + destruct (IH s1 co1 cb1 kids (x_owned _ _ _ _ _ _ _ X)) as (co2 & cb2 & Y & M).
      { intros k Hk. destruct (HK k (or_intror Hk)). pose proof (x_lo _ _ _ _ _ _ _ X). split; [lia|]. rewrite (x_co _ _ _ _ _ _ _ X); auto. }
      destruct (components f s1 cs kids) as (s2, r2). cbn in Y, M. exists co2, cb2. destruct r2 as [os|er]; cbn.
      * split; [eapply ext_trans; eauto|]. intros os' E. injection E as <-. intros k [<-|Hk]; [|apply (M os); auto].
        destruct (N o' eq_refl). pose proof (x_lo _ _ _ _ _ _ _ Y). split; [lia|]. rewrite (x_co _ _ _ _ _ _ _ Y); auto.
      * split; [eapply ext_trans; eauto | discriminate].
    + exists co1, cb1. split; [exact X | discriminate].
Qed.
Lemma on_set_safe s co cb kids : owned s co cb -> (forall k, In k kids -> k < length (objs s) /\ co k = e) -> safe d s co cb (on_set f s kids).
Proof.
  intros H HK. unfold on_set. destruct (components_safe set_classes s co cb kids H HK) as (co1 & cb1 & X & N).
  destruct (components f s set_classes kids) as (s1, r). cbn in X, N. destruct r as [os|er].
  - eapply safe_ext; [exact X|]. apply safe_new; [apply (x_owned _ _ _ _ _ _ _ X) | intros b E; discriminate | intros k Hk; apply (N os); auto].
  - exists co1, cb1. split; [exact X|discriminate].
Qed.
Lemma on_obj_safe s co cb o : owned s co cb -> o < length (objs s) -> co o = e -> safe d s co cb (on_obj f s o).
Proof.
  intros H L Hd. unfold on_obj. destruct (nth_error (objs s) o) as [ob|] eqn:E; [|apply safe_err, H]. destruct (H o _ E) as (A & B). destruct ob as [r b off n|c b off n|kids|p a].
  - apply safe_err, H.
  - destruct (A b eq_refl). apply Hf; auto; congruence.
  - apply on_set_safe; [exact H|]. intros k Hk. destruct (B k Hk). split; [auto|congruence].
  - destruct (nth_error (objs s) p) as [ob|] eqn:Ep; [|apply safe_err, H]. destruct ob as [| |kids|]; try (apply safe_err, H).
    destruct (B p (or_introl eq_refl)) as (Lp & Cp). destruct (H p _ Ep) as (_ & Bp).
    destruct (on_set_safe s co cb kids H) as (co1 & cb1 & X & N). { intros k Hk. destruct (Bp k Hk). split; [auto|congruence]. }
    destruct (on_set f s kids) as (s1, r). cbn in X, N. destruct r as [p'|er]; [|exists co1, cb1; split; [exact X|discriminate]].
    destruct (B a (or_intror (or_introl eq_refl))) as (La & Ca).
    assert (Ca1 : co1 a = e) by (rewrite (x_co _ _ _ _ _ _ _ X); [congruence|exact La]).
    destruct (component_safe s1 co1 cb1 Edges a (x_owned _ _ _ _ _ _ _ X) Ca1) as (co2 & cb2 & Y & M).
    eapply safe_ext; [exact X|]. destruct (component f s1 Edges a) as (s2, r). cbn in Y, M. destruct r as [a'|er]; [|exists co2, cb2; split; [exact Y|discriminate]].
    eapply safe_ext; [exact Y|]. apply safe_new; [apply (x_owned _ _ _ _ _ _ _ Y) | intros b Eb; discriminate|].
    intros k [<-|[<-|[]]].
    + destruct (N p' eq_refl). pose proof (x_lo _ _ _ _ _ _ _ Y). split; [lia|]. rewrite (x_co _ _ _ _ _ _ _ Y); auto.
    + apply (M a' eq_refl).
Qed.
End Method.

Lemma adopt_safe d s co cb src : owned s co cb -> co src = d ->
  exists cb', ext d s co cb (fst (adopt s src)) co cb' /\ objs (fst (adopt s src)) = objs s /\
    (forall b off n, snd (adopt s src) = Ok (b, off, n) -> b < length (bufs (fst (adopt s src))) /\ cb' b = d).
Proof.
  intros H Hd. unfold adopt. assert (Z : exists cb', ext d s co cb s co cb' /\ objs s = objs s) by (exists cb; split; [apply ext_refl, H|reflexivity]).
  destruct (nth_error (objs s) src) as [ob|] eqn:E; [|exists cb; split; [apply ext_refl, H|split;[reflexivity|discriminate]]].
  destruct (H src _ E) as (A & _). destruct ob as [[|] b off n|c b off n|kids|p a].
  - exists cb. split; [apply ext_refl, H|]. split; [reflexivity|]. cbn. intros b' off' n' F. injection F as <- _ _. destruct (A b eq_refl). split; [auto|congruence].
  - pose proof (new_buf_ext d s co cb (window s b off n) H) as N. destruct (new_buf s (window s b off n)) as (s1, b') eqn:EN. destruct N as (cb' & X & L & C).
    exists cb'. split; [exact X|]. split; [injection EN as <- <-; reflexivity|]. cbn. intros b'' off' n' F. injection F as <- _ _. auto.
  - exists cb. split; [apply ext_refl, H|]. split; [reflexivity|]. cbn. intros b' off' n' F. injection F as <- _ _. destruct (A b eq_refl). split; [auto|congruence].
  - exists cb. split; [apply ext_refl, H|split;[reflexivity|discriminate]].
  - exists cb. split; [apply ext_refl, H|split;[reflexivity|discriminate]].
Qed.
Lemma construct_safe d s co cb c src : owned s co cb -> co src = d -> safe d s co cb (construct s c src).
Proof.
  intros H Hd. unfold construct. destruct (adopt_safe d s co cb src H Hd) as (cb' & X & _ & N). destruct (adopt s src) as (s1, r). cbn in X, N.
  destruct r as [[[b off] n]|e]; [|exists co, cb'; split; [exact X|discriminate]].
  eapply safe_ext; [exact X|]. apply safe_new; [apply (x_owned _ _ _ _ _ _ _ X)| |intros k []]. cbn. intros b' E. injection E as <-. eapply N. reflexivity.
Qed.
Lemma construct_all_safe d cs : forall s co cb src, owned s co cb -> (forall k, In k src -> k < length (objs s) /\ co k = d) ->
  exists co' cb', ext d s co cb (fst (construct_all s cs src)) co' cb' /\
    (forall os, snd (construct_all s cs src) = Ok os -> forall k, In k os -> k < length (objs (fst (construct_all s cs src))) /\ co' k = d).
Proof.
  induction cs as [|c cs IH]; intros s co cb src H HK; cbn.
  - exists co, cb. destruct src; (split; [apply ext_refl, H|]); cbn; [intros os E; injection E as <-; intros k []|discriminate].
  - destruct src as [|o src]; [exists co, cb; split; [apply ext_refl, H|]; cbn; discriminate|].
    destruct (HK o (or_introl eq_refl)) as (Lo & Co). destruct (construct_safe d s co cb c o H Co) as (co1 & cb1 & X & N).
    destruct (construct s c o) as (s1, r). cbn in X, N. destruct r as [o'|e].
    + destruct (IH s1 co1 cb1 src (x_owned _ _ _ _ _ _ _ X)) as (co2 & cb2 & Y & M).
      { intros k Hk. destruct (HK k (or_intror Hk)). pose proof (x_lo _ _ _ _ _ _ _ X). split; [lia|]. rewrite (x_co _ _ _ _ _ _ _ X); auto. }
      destruct (construct_all s1 cs src) as (s2, r2). cbn in Y, M. exists co2, cb2. destruct r2 as [os|e]; cbn.
      * split; [eapply ext_trans; eauto|]. intros os' E. injection E as <-. intros k [<-|Hk]; [|apply (M os); auto].
        destruct (N o' eq_refl). pose proof (x_lo _ _ _ _ _ _ _ Y). split; [lia|]. rewrite (x_co _ _ _ _ _ _ _ Y); auto.
      * split; [eapply ext_trans; eauto | discriminate].
    + exists co1, cb1. split; [exact X | discriminate].
Qed.
Lemma make_set_safe d s co cb src : owned s co cb -> (forall k, In k src -> k < length (objs s) /\ co k = d) -> safe d s co cb (make_set s src).
Proof.
  intros H HK. unfold make_set. destruct (construct_all_safe d set_classes s co cb src H HK) as (co1 & cb1 & X & N).
  destruct (construct_all s set_classes src) as (s1, r). cbn in X, N. destruct r as [os|e].
  - eapply safe_ext; [exact X|]. apply safe_new; [apply (x_owned _ _ _ _ _ _ _ X) | intros b E; discriminate | intros k Hk; apply (N os); auto].
  - exists co1, cb1. split; [exact X|discriminate].
Qed.

Lemma nth_set_nth {A} (l : list A) i x j : nth_error (set_nth l i x) j = if Nat.eqb j i then (match nth_error l j with Some _ => Some x | None => None end) else nth_error l j.
Proof. revert i j. induction l as [|y l IH]; intros [|i] [|j]; cbn; try reflexivity; [destruct (Nat.eqb j i); reflexivity|]. apply IH. Qed.

(** Rebinding one object of side [d]. *)
Lemma set_obj_ext d s co cb o ob : owned s co cb -> co o = d ->
  (forall b, buf_of ob = Some b -> b < length (bufs s) /\ cb b = d) -> (forall k, In k (kids_of ob) -> k < length (objs s) /\ co k = d) ->
  ext d s co cb (mkSt (bufs s) (set_nth (objs s) o ob)) co cb.
Proof.
  intros H Hd HB HK. split; cbn; rewrite ?set_nth_length; auto; try lia.
  - intros o' ob' E. cbn in *. rewrite set_nth_length. rewrite nth_set_nth in E. destruct (Nat.eqb_spec o' o) as [->|N].
    + destruct (nth_error (objs s) o); [|discriminate]. injection E as <-. rewrite Hd. auto.
    + apply H. exact E.
  - intros o' L C. rewrite nth_set_nth. destruct (Nat.eqb_spec o' o) as [->|N]; [congruence|reflexivity].
Qed.
Lemma write_ext d s co cb o k f : owned s co cb -> co o = d -> ext d s co cb (fst (write s o k f)) co cb.
Proof.
  intros H Hd. unfold write. destruct (nth_error (objs s) o) as [ob|] eqn:E; [|apply ext_refl, H]. destruct (H o _ E) as (A & _).
  assert (G : forall b off n, buf_of ob = Some b -> ext d s co cb (fst (match resolve n k with Ok ps => (write_buf s b (map (Nat.add off) ps) f, Ok tt) | Err e => (s, Err e) end)) co cb).
  { intros b off n HB. destruct (A b HB) as (L & C). destruct (resolve n k) as [ps|e]; [|apply ext_refl, H]. cbn. unfold write_buf.
    destruct (nth_error (bufs s) b) as [l|] eqn:Eb; [|apply ext_refl, H]. split; cbn; rewrite ?set_nth_length; auto; try lia.
    - intros o' ob' E'. cbn in *. rewrite set_nth_length. apply H. exact E'.
    - intros b' L' C'. rewrite nth_set_nth. destruct (Nat.eqb_spec b' b) as [->|N]; [congruence|reflexivity]. }
  destruct ob; try (apply ext_refl, H); apply G; reflexivity.
Qed.

Lemma all_In {A} (l : list (option A)) r x : all l = Some r -> In x r -> In (Some x) l.
Proof.
  revert r. induction l as [|[y|] l IH]; intros r; cbn; [intros E; injection E as <-; intros []| |discriminate].
  destruct (all l) as [r'|]; [|discriminate]. intros E. injection E as <-. intros [->|H]; [left; reflexivity | right; eapply IH; eauto].
Qed.

(** Every statement of side [d] extends the memory and changes only what side [d] owns. *)
Lemma step_ext d s co cb env o s' env' : owned s co cb -> names s co d env -> step s env o = (s', env') ->
  exists co' cb', ext d s co cb s' co' cb' /\ names s' co' d env'.
Proof.
  intros H HN. assert (HN' : forall x r, nth_error env x = Some r -> r < length (objs s) /\ co r = d) by (intros x r E; apply HN; eapply nth_error_In; eauto).
  assert (Z : forall s', s' = s -> exists co' cb', ext d s co cb s' co' cb' /\ names s' co' d env) by (intros ? ->; exists co, cb; split; [apply ext_refl, H | exact HN]).
  assert (P : forall r, safe d s co cb r -> push env r = (s', env') -> exists co' cb', ext d s co cb s' co' cb' /\ names s' co' d env').
  { intros (s1, [o1|e]) (co' & cb' & X & N) E; cbn in E, X, N; injection E as <- <-; exists co', cb'; (split; [exact X|]).
    - intros x Hx. apply in_app_or in Hx as [Hx|[<-|[]]]; [apply (names_ext _ _ _ _ _ _ _ _ _ X HN x Hx) | apply (N o1 eq_refl)].
    - apply (names_ext _ _ _ _ _ _ _ _ _ X HN). }
  assert (U : forall s1 co1 cb1, ext d s co cb s1 co1 cb1 -> s1 = s' -> env = env' -> exists co' cb', ext d s co cb s' co' cb' /\ names s' co' d env').
  { intros s1 co1 cb1 X <- <-. exists co1, cb1. split; [exact X | apply (names_ext _ _ _ _ _ _ _ _ _ X HN)]. }
  destruct o as [x k|x|x i|c x|xs|p a|ready l|x k f|x y|x i y]; cbn [step].
  - destruct (nth_error env x) as [r|] eqn:E; [|intros F; injection F as <- <-; auto]. destruct (HN' x r E). apply P, (on_obj_safe d d); auto. apply select_method.
  - destruct (nth_error env x) as [r|] eqn:E; [|intros F; injection F as <- <-; auto]. destruct (HN' x r E). apply P, (on_obj_safe d d); auto. apply copy_method.
  - destruct (nth_error env x) as [r|] eqn:E; [|intros F; injection F as <- <-; auto]. destruct (HN' x r E) as (L & C). destruct (kid s r i) as [r'|] eqn:K; intros F; injection F as <- <-; auto.
    exists co, cb. split; [apply ext_refl, H|]. intros o Ho. apply in_app_or in Ho as [Ho|[<-|[]]]; [apply HN, Ho|].
    unfold kid in K. destruct (nth_error (objs s) r) as [ob|] eqn:Eo; [|discriminate]. destruct (H r _ Eo) as (_ & B). rewrite <- C.
    destruct ob; try discriminate; apply B; apply nth_error_In in K; exact K.
  - destruct (nth_error env x) as [r|] eqn:E; [|intros F; injection F as <- <-; auto]. destruct (HN' x r E). apply P, construct_safe; auto.
  - destruct (all (map (nth_error env) xs)) as [rs|] eqn:E; [|intros F; injection F as <- <-; auto]. apply P, make_set_safe; [exact H|].
    intros k Hk. eapply all_In in E; [|exact Hk]. apply in_map_iff in E as (x & E & _). eapply HN'; eauto.
  - destruct (nth_error env p) as [rp|] eqn:Ep; [|intros F; injection F as <- <-; auto]. destruct (nth_error env a) as [ra|] eqn:Ea; [|intros F; injection F as <- <-; auto].
    destruct (is_set s rp && is_arr s ra Edges); [|intros F; injection F as <- <-; auto]. intros F. apply (P (let (s1, g) := new_obj s (OGraph rp ra) in (s1, Ok g))).
    + apply safe_new; [exact H | discriminate |]. intros k [<-|[<-|[]]]; eapply HN'; eauto.
    + destruct (new_obj s (OGraph rp ra)). exact F.
  - pose proof (new_buf_ext d s co cb l H) as N. destruct (new_buf s l) as (s1, b). destruct N as (cb1 & X & L & C).
    pose proof (new_obj_ext d s1 co cb1 (ONd ready b 0 (length l)) (x_owned _ _ _ _ _ _ _ X)) as M. destruct (new_obj s1 _) as (s2, r). destruct M as (co2 & Y & L2 & C2).
    { cbn. intros b' E. injection E as <-. auto. } { intros k []. }
    intros F. injection F as <- <-. exists co2, cb1. split; [eapply ext_trans; eauto|]. intros o Ho. apply in_app_or in Ho as [Ho|[<-|[]]]; [|auto].
    apply (names_ext d d s co cb s2 co2 cb1 env); [eapply ext_trans; eauto | exact HN | exact Ho].
  - destruct (nth_error env x) as [r|] eqn:E; [|intros F; injection F as <- <-; auto]. destruct (HN' x r E) as (L & C). intros F; injection F as F <-. apply (U _ co cb (write_ext d s co cb r k f H C) F eq_refl).
  - destruct (nth_error env x) as [r|] eqn:E; [|intros F; injection F as <- <-; auto]. destruct (nth_error env y) as [r'|] eqn:E'; [|intros F; injection F as <- <-; auto].
    destruct (HN' x r E) as (L & C). destruct (HN' y r' E') as (L' & C'). unfold set_data. destruct (nth_error (objs s) r) as [ob|] eqn:Eo; [|intros F; injection F as <- <-; auto].
    destruct ob as [| c b off n| |]; try (cbn [fst]; intros F; injection F as <- <-; apply Z; reflexivity).
    destruct (adopt_safe d s co cb r' H C') as (cb1 & X & EO & N).
    assert (G : (fst (let (s1, r0) := adopt s r' in match r0 with Ok (b, off, n) => (mkSt (bufs s1) (set_nth (objs s1) r (OArr c b off n)), Ok tt) | Err e => (s1, Err e) end), env) = (s', env') ->
      exists co' cb', ext d s co cb s' co' cb' /\ names s' co' d env').
    { destruct (adopt s r') as (s1, r0). cbn in X, EO, N. destruct r0 as [[[b' off'] n']|e]; intros F; injection F as F <-; [|eapply U; eauto].
      eapply U; [|exact F|reflexivity]. eapply ext_trans; [exact X|]. apply set_obj_ext; [apply (x_owned _ _ _ _ _ _ _ X) | exact C | | intros k []].
      cbn. intros b'' Eb. injection Eb as <-. eapply N. reflexivity. }
    destruct (adopt s r') as (s1, [[[b' off'] n']|e]); destruct c; try exact G; cbn [fst]; intros F; injection F as <- <-; apply Z; reflexivity.
  - destruct (nth_error env x) as [r|] eqn:E; [|intros F; injection F as <- <-; auto]. destruct (nth_error env y) as [r'|] eqn:E'; [|intros F; injection F as <- <-; auto].
    destruct (HN' x r E) as (L & C). destruct (HN' y r' E') as (L' & C'). intros F. injection F as F <-. unfold set_field in F.
    destruct (nth_error (objs s) r) as [ob|] eqn:Eo; [|eapply Z; eauto]. destruct (H r _ Eo) as (_ & B).
    destruct ob as [| |kids|p a]; try (subst s'; eapply Z; reflexivity).
    + destruct (nth_error set_classes i) as [c|]; [|subst s'; eapply Z; reflexivity]. destruct (is_arr s r' c); [|subst s'; eapply Z; reflexivity].
      eapply U; [apply set_obj_ext with (o := r)|exact F|reflexivity]; auto; [discriminate|]. cbn. intros k Hk. apply In_nth_error in Hk as (j & Hj). rewrite nth_set_nth in Hj.
      destruct (Nat.eqb j i); [destruct (nth_error kids j); [injection Hj as <-; auto|discriminate]|]. destruct (B k) as (B1 & B2); [apply nth_error_In in Hj; exact Hj|]. split; [auto|congruence].
    + destruct i as [|[|i]].
      * destruct (is_set s r'); [|subst s'; eapply Z; reflexivity]. eapply U; [apply set_obj_ext with (o := r)|exact F|reflexivity]; auto; [discriminate|].
        cbn. intros k [<-|[<-|[]]]; [auto|]. destruct (B a (or_intror (or_introl eq_refl))). split; [auto|congruence].
      * destruct (is_arr s r' Edges); [|subst s'; eapply Z; reflexivity]. eapply U; [apply set_obj_ext with (o := r)|exact F|reflexivity]; auto; [discriminate|].
        cbn. intros k [<-|[<-|[]]]; [|auto]. destruct (B p (or_introl eq_refl)). split; [auto|congruence].
      * subst s'. eapply Z. reflexivity.
Qed.

(** What the other side reads is not affected. *)
Lemma read_ext d s co cb s' co' cb' : owned s co cb -> ext d s co cb s' co' cb' ->
  forall path o, o < length (objs s) -> co o <> d -> read s' o path = read s o path.
Proof.
  intros H X. induction path as [|i path IH]; intros o L C; cbn.
  - rewrite (x_objs _ _ _ _ _ _ _ X o L C). destruct (nth_error (objs s) o) as [ob|] eqn:E; [|reflexivity]. destruct (H o _ E) as (A & _).
    destruct ob; try reflexivity; destruct (A b eq_refl) as (Lb & Cb); unfold window; rewrite (x_bufs _ _ _ _ _ _ _ X b Lb); congruence.
  - unfold kid. rewrite (x_objs _ _ _ _ _ _ _ X o L C). destruct (nth_error (objs s) o) as [ob|] eqn:E; [|reflexivity]. destruct (H o _ E) as (_ & B).
    destruct ob as [| |kids|p a]; try reflexivity.
    + destruct (nth_error kids i) as [k|] eqn:K; [|reflexivity]. apply nth_error_In in K. destruct (B k K). apply IH; [auto|congruence].
    + destruct (nth_error [p; a] i) as [k|] eqn:K; [|reflexivity]. apply nth_error_In in K. destruct (B k K). apply IH; [auto|congruence].
Qed.

(** Both sides stay separated. *)
Definition separated (p : st * list nat * list nat) : Prop :=
  let '(s, ea, eb) := p in exists co cb, owned s co cb /\ names s co true ea /\ names s co false eb.
Lemma step2_separated p o : separated p -> separated (step2 p o).
Proof.
  destruct p as [[s ea] eb]. intros (co & cb & H & A & B). destruct o as [[|] o]; cbn [step2 fst snd].
  - destruct (step s ea o) as (s', ea') eqn:E. destruct (step_ext true s co cb ea o s' ea' H A E) as (co' & cb' & X & N).
    exists co', cb'. split; [apply (x_owned _ _ _ _ _ _ _ X)|]. split; [exact N | eapply names_ext; eauto].
  - destruct (step s eb o) as (s', eb') eqn:E. destruct (step_ext false s co cb eb o s' eb' H B E) as (co' & cb' & X & N).
    exists co', cb'. split; [apply (x_owned _ _ _ _ _ _ _ X)|]. split; [eapply names_ext; eauto | exact N].
Qed.
Lemma run2_separated ops : forall p, separated p -> separated (run2 p ops).
Proof. induction ops as [|o ops IH]; intros p H; [exact H|]. cbn. apply IH, step2_separated, H. Qed.
Lemma separated_quiet s ea eb o : separated (s, ea, eb) ->
  (forall b path, In b eb -> read (fst (step s ea o)) b path = read s b path) /\
  (forall a path, In a ea -> read (fst (step s eb o)) a path = read s a path).
Proof.
  intros (co & cb & H & A & B). split.
  - intros b path Hb. destruct (step s ea o) as (s', ea') eqn:E. destruct (step_ext true s co cb ea o s' ea' H A E) as (co' & cb' & X & _). destruct (B b Hb) as (L & C).
    eapply read_ext; eauto. congruence.
  - intros a path Ha. destruct (step s eb o) as (s', eb') eqn:E. destruct (step_ext false s co cb eb o s' eb' H B E) as (co' & cb' & X & _). destruct (A a Ha) as (L & C).
    eapply read_ext; eauto. congruence.
Qed.
End MP.
