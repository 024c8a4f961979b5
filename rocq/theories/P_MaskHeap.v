(** Property C09: copies of masks are isolated from their originals, over every
    history of mutations. *)
From Verif Require Import Prelude Dict Keys MaskTypes Mask MaskHeap SpecHeap MaskHeapProofs SpecKeys P_Keys.

(** [c = g.copy()] succeeds (within the recursion limit), shows the value of
    [g], and after ANY interleaved history [hist] of mutations through [g] and
    [c], one more mutation through one of them does not change what the other
    one shows. *)
Theorem C09_copy_isolated : forall fuel h g m,
  heap_ok h -> shows h g m -> depth m <= fuel ->
  exists h' c, copy fuel h g = (h', Ok c) /\ shows h' c m /\ shows h' g m /\
    forall hist o v,
      let h2 := interleave fuel c g h' hist in
      (shows h2 g v -> shows (fst (apply fuel c h2 o)) g v) /\
      (shows h2 c v -> shows (fst (apply fuel g h2 o)) c v).
Proof.
  intros fuel h g m HN HS HD. destruct (copy_separate fuel h g m HN HS HD) as (h' & c & H1 & H2 & H3 & Sep).
  exists h', c. split; [exact H1|]. split; [exact H2|]. split; [exact H3|]. intros hist o v.
  pose proof (separate_interleave fuel c g hist h' Sep) as Sep'. cbn zeta. split; intros HV.
  - apply separate_apply_shows; assumption.
  - apply separate_apply_shows; [apply separate_sym|]; assumption.
Qed.
Print Assumptions C09_copy_isolated.

(** In particular whole histories through one reference leave the other's value as it was. *)
Theorem C09_copy_histories : forall fuel h g m h' c,
  heap_ok h -> shows h g m -> depth m <= fuel -> copy fuel h g = (h', Ok c) ->
  forall ops, shows (history fuel c h' ops) g m /\ shows (history fuel g h' ops) c m.
Proof.
  intros fuel h g m h' c HN HS HD Hc ops.
  destruct (copy_separate fuel h g m HN HS HD) as (h1 & c1 & H1 & H2 & H3 & (N & A & B & D)).
  rewrite Hc in H1. injection H1 as <- <-. split; apply history_isolated; try assumption; eauto.
Qed.
Print Assumptions C09_copy_histories.

(** [g.recursive_drop(key)] (not in place) leaves [g] untouched, returns the
    dropped value, and the result is isolated from [g] for ever. *)
Theorem C09_recursive_drop_copies : forall fuel key h g agg kids,
  heap_ok h -> hwf h -> shows h g (MGrp agg kids) -> depth (MGrp agg kids) <= fuel ->
  exists h' c, recursive_drop_copy fuel key h g = (h', Ok c) /\
    shows h' c (recursive_drop key (MGrp agg kids)) /\ shows h' g (MGrp agg kids) /\
    forall hist o v,
      let h2 := interleave fuel c g h' hist in
      (shows h2 g v -> shows (fst (apply fuel c h2 o)) g v) /\
      (shows h2 c v -> shows (fst (apply fuel g h2 o)) c v).
Proof.
  intros fuel key h g agg ms HN HW HS HD.
  destruct (copy_drop_separate fuel key h g agg ms HN HW HS HD) as (h' & c & H1 & H2 & H3 & Sep).
  exists h', c. split; [exact H1|]. split; [exact H2|]. split; [exact H3|]. intros hist o v.
  pose proof (separate_interleave fuel c g hist h' Sep) as Sep'. cbn zeta. split; intros HV.
  - apply separate_apply_shows; assumption.
  - apply separate_apply_shows; [apply separate_sym|]; assumption.
Qed.
Print Assumptions C09_recursive_drop_copies.

(** [g.recursive_drop(key, inplace=True)] changes [g] itself, to the same value. *)
Theorem C09_recursive_drop_inplace : forall fuel key h g agg kids,
  hwf h -> shows h g (MGrp agg kids) -> depth (MGrp agg kids) <= fuel ->
  exists h', drop_inplace fuel key h g = (h', Ok tt) /\
             shows h' g (recursive_drop key (MGrp agg kids)).
Proof. exact drop_inplace_correct. Qed.
Print Assumptions C09_recursive_drop_inplace.

(** * The hypotheses can be met, with sharing *)

(* objects: 0 buffer, 1 MaskArray, 2 inner group holding it, 3 outer group
   holding the inner group AND the same array again (aliasing) *)
Definition ex_heap : heap :=
  [OBuf [true; false]; OArr 0; OGrp "or" [("x", 1)]; OGrp "and" [("in", 2); ("alias", 1)]]%string.
Definition ex_mask : mask :=
  (MGrp "and" [("in", MGrp "or" [("x", MArr [true; false])]); ("alias", MArr [true; false])])%string.

Example C09_hyps : heap_ok ex_heap /\ hwf ex_heap /\ shows ex_heap 3 ex_mask /\ depth ex_mask <= 10.
Proof.
  split; [|split; [|split]].
  - intros [|[|[|[|x]]]] Hx; cbn in *; auto; try lia.
    + intros k c [E|[]]. injection E as <- <-. lia.
    + intros k c [E|[E|[]]]; injection E as <- <-; lia.
  - intros [|[|[|[|x]]]] agg kids E; cbn in E; try discriminate; try (injection E as <- <-).
    + repeat constructor; cbn; intuition discriminate.
    + repeat constructor; cbn; intuition discriminate.
    + destruct x; discriminate.
  - unfold ex_mask. eapply shows_grp; [reflexivity|]. repeat econstructor.
  - vm_compute. lia.
Qed.

(** Without copying, an alias does see the mutation: the isolation above is not vacuous. *)
Example C09_alias_sees : 
  nth_error (fst (apply 10 3 ex_heap (HElem ["alias"%string] (KInt 0) false))) 0 = Some (OBuf [false; false]).
Proof. reflexivity. Qed.

(** * C116 what a mutation does to the mask it is applied to *)

Lemma reach_shows h l m : shows h l m -> forall x, reach h l x ->
  (exists d, nth_error h x = Some (OBuf d)) \/ (exists m', shows h x m' /\ depth m' <= depth m).
Proof.
  revert l m. apply (shows_mind h
    (fun l m _ => forall x, reach h l x ->
       (exists d, nth_error h x = Some (OBuf d)) \/ (exists m', shows h x m' /\ depth m' <= depth m))
    (fun kids ms _ => forall k c x, In (k, c) kids -> reach h c x ->
       (exists d, nth_error h x = Some (OBuf d)) \/
       (exists m', shows h x m' /\ depth m' <= fold_right (fun p n => Nat.max (depth (snd p)) n) 0 ms))).
  - intros l b d E1 E2 x Hx. inversion Hx as [|? b' ? E Hb|? ? ? ? ? ? E]; subst; try congruence.
    + right. exists (MArr d). split; [econstructor; eauto | lia].
    + assert (b' = b) by congruence; subst b'.
      inversion Hb as [|? ? ? E'|? ? ? ? ? ? E']; subst; try congruence. left; eauto.
  - intros l agg kids ms E HK IH x Hx. inversion Hx as [|? b' ? E' Hb|? ? kids' k c ? E' Hk Hr]; subst; try congruence.
    + right. exists (MGrp agg ms). split; [econstructor; eauto | lia].
    + assert (kids' = kids) by congruence; subst kids'.
      destruct (IH k c x Hk Hr) as [H|(m' & H1 & H2)]; [left; exact H | right; exists m'; cbn [depth]; split; [exact H1 | lia]].
  - intros k c x [].
  - intros k c m kids ms _ IH1 _ IH2 k' c' x [E|Hk] Hx; cbn [fold_right snd].
    + injection E as -> ->. destruct (IH1 x Hx) as [H|(m' & H1 & H2)]; [left; exact H | right; exists m'; split; [exact H1 | lia]].
    + destruct (IH2 k' c' x Hk Hx) as [H|(m' & H1 & H2)]; [left; exact H | right; exists m'; split; [exact H1 | lia]].
Qed.

(** A group is not reachable from its own children. *)
Lemma kids_miss_group h l agg ms kids k c x :
  shows h l (MGrp agg ms) -> nth_error h l = Some (OGrp agg kids) -> shows_kids h kids ms ->
  In (k, c) kids -> reach h c x -> x <> l.
Proof.
  intros HS E HK Hk Hr ->.
  assert (exists m, shows h c m /\ In (k, m) ms) as (m & Hc & Hm).
  { clear HS E Hr. induction HK as [|k0 c0 m0 kids ms H0 HK IH]; [destruct Hk|].
    destruct Hk as [E|Hk]; [injection E as -> ->; exists m0; split; [exact H0 | left; reflexivity]|].
    destruct (IH Hk) as (m & H1 & H2). exists m. split; [exact H1 | right; exact H2]. }
  destruct (reach_shows h c m Hc l Hr) as [(d & Ed)|(m' & H1 & H2)]; [congruence|].
  pose proof (shows_fun _ _ _ HS _ H1) as <-. pose proof (depth_kid agg ms k m Hm). lia.
Qed.

Lemma set_grp_shows_kids h l o agg ms kids :
  shows h l (MGrp agg ms) -> nth_error h l = Some (OGrp agg kids) -> shows_kids h kids ms ->
  forall sub subm, incl sub kids -> shows_kids h sub subm -> shows_kids (set_nth h l o) sub subm.
Proof.
  intros HS E HK sub subm HI HSub. induction HSub as [|k c m sub subm Hc HSub IH]; [constructor|].
  constructor; [|apply IH; intros p Hp; apply HI; right; exact Hp].
  apply (shows_ext h); [exact Hc|]. intros x Hx. rewrite set_nth_nth.
  destruct (Nat.eqb_spec l x) as [<-|N]; [|reflexivity].
  exfalso. eapply (kids_miss_group h l agg ms kids k c); eauto. apply HI; left; reflexivity.
Qed.

Lemma shows_kids_dget h k kids ms : shows_kids h kids ms ->
  (dget k kids = None <-> dget k ms = None).
Proof. intros H. induction H as [|k0 c m kids ms _ _ IH]; cbn [dget]; [tauto|]. destruct (String.eqb k k0); [split; discriminate | exact IH]. Qed.

Lemma shows_kids_ddel h k kids ms : shows_kids h kids ms -> shows_kids h (ddel k kids) (ddel k ms).
Proof.
  intros H. induction H as [|k0 c m kids ms Hc H IH]; cbn [ddel]; [constructor|].
  destruct (String.eqb k k0); [exact H | constructor; assumption].
Qed.

Lemma shows_kids_dset h k c m kids ms : shows_kids h kids ms -> shows h c m ->
  shows_kids h (dset k c kids) (dset k m ms).
Proof.
  intros H Hc. induction H as [|k0 c0 m0 kids ms Hc0 H IH]; cbn [dset]; [repeat constructor; exact Hc|].
  destruct (String.eqb k k0); constructor; auto.
Qed.

Lemma write_all_length ps : forall d v, length (write_all d ps v) = length d.
Proof.
  unfold write_all. induction ps as [|p ps IH]; intros d v; [reflexivity|].
  cbn [fold_left]. rewrite IH. apply set_nth_length.
Qed.

Lemma write_all_nth ps : forall d v i, i < length d ->
  nth_error (write_all d ps v) i = if existsb (Nat.eqb i) ps then Some v else nth_error d i.
Proof.
  unfold write_all. induction ps as [|p ps IH]; intros d v i Hi; [reflexivity|].
  cbn [fold_left existsb]. rewrite IH by (rewrite set_nth_length; exact Hi). rewrite set_nth_nth.
  destruct (existsb (Nat.eqb i) ps); [rewrite orb_true_r; reflexivity|]. rewrite orb_false_r.
  rewrite (Nat.eqb_sym p i). destruct (Nat.eqb_spec i p) as [->|N]; [|reflexivity].
  destruct (nth_error d p) eqn:E; [reflexivity|]. apply nth_error_None in E. lia.
Qed.

(** [m[k] = v] on the MaskArray reached by names [p]: exactly the selected
    elements become [v]; a rejected key raises and changes nothing. *)
Theorem C116_assignment : forall fuel h root p l d k v,
  walk h root p = Ok l -> shows h l (MArr d) ->
  (forall ps, selects (length d) k ps ->
     exists h' d', apply fuel root h (HElem p k v) = (h', Ok tt) /\ shows h' l (MArr d') /\
       length d' = length d /\
       forall i, i < length d ->
         (In i ps -> nth_error d' i = Some v) /\ (~ In i ps -> nth_error d' i = nth_error d i)) /\
  ((forall ps, ~ selects (length d) k ps) ->
     exists e, apply fuel root h (HElem p k v) = (h, Err e) /\ rejects (length d) k e).
Proof.
  intros fuel h root p l d k v HW HS. inversion HS as [? b ? E1 E2|]; subst.
  cbn [apply]. rewrite HW, E1, E2. pose proof (C104_key_positions (length d) k) as [KP KE]. split.
  - intros ps Hps. destruct (resolve (length d) k) as [ps'|e] eqn:R.
    + assert (ps' = ps) by (eapply C104_selection_unique; [apply KP; reflexivity | exact Hps]). subst ps'.
      exists (set_nth h b (OBuf (write_all d ps v))), (write_all d ps v).
      assert (Nb : l <> b) by (intros ->; congruence).
      split; [reflexivity|]. split; [|split; [apply write_all_length|]].
      * econstructor; rewrite set_nth_nth; rewrite ?Nat.eqb_refl.
        -- destruct (Nat.eqb_spec b l); [congruence | exact E1].
        -- rewrite E2. reflexivity.
      * intros i Hi. rewrite write_all_nth by exact Hi. split; intros Hin.
        -- replace (existsb (Nat.eqb i) ps) with true; [reflexivity|]. symmetry. apply existsb_exists.
           exists i. split; [exact Hin | apply Nat.eqb_refl].
        -- destruct (existsb (Nat.eqb i) ps) eqn:X; [|reflexivity]. apply existsb_exists in X as (j & Hj & Ej).
           apply Nat.eqb_eq in Ej. subst j. contradiction.
    + exfalso. specialize (KE e eq_refl). destruct k as [m|z|zl|lo hi st]; cbn [selects rejects] in *.
      * tauto.
      * destruct Hps as (q & _ & Hq & Hz). destruct KE as [KE _]. apply KE. unfold from_end in Hz. destruct (Z.ltb_spec z 0); lia.
      * destruct KE as [(z & Hz & KE) _]. apply KE.
        assert (exists q, q < length d /\ Z.of_nat q = from_end (length d) z) as (q & Hq & Hqz).
        { clear - Hps Hz. induction Hps as [|z0 q zl ps H0 Hps IH]; [destruct Hz|]. destruct Hz as [->|Hz]; [eauto | auto]. }
        unfold from_end in Hqz. destruct (Z.ltb_spec z 0); lia.
      * destruct KE as [-> _]. destruct Hps as [Hps _]. congruence.
  - intros HN. destruct (resolve (length d) k) as [ps'|e] eqn:R.
    + exfalso. apply (HN ps'). apply KP; reflexivity.
    + exists e. split; [reflexivity | apply KE; reflexivity].
Qed.
Print Assumptions C116_assignment.

(** [m.data = d'] replaces the contents. *)
Theorem C116_rebind : forall fuel h root p l d d', walk h root p = Ok l -> shows h l (MArr d) ->
  exists h', apply fuel root h (HData p d') = (h', Ok tt) /\ shows h' l (MArr d').
Proof.
  intros fuel h root p l d d' HW HS. inversion HS as [? b ? E1 E2|]; subst.
  cbn [apply]. rewrite HW, E1. cbn [alloc]. eexists. split; [reflexivity|].
  assert (l < length h) by (apply nth_error_Some; congruence).
  econstructor; rewrite set_nth_nth.
  - rewrite Nat.eqb_refl. rewrite nth_error_app1 by lia. rewrite E1. reflexivity.
  - destruct (Nat.eqb_spec l (length h)); [lia|]. rewrite nth_error_app2, Nat.sub_diag by lia. reflexivity.
Qed.
Print Assumptions C116_rebind.

(** [g[k] = m], [del g[k]] and [g.agg_op = s] on the MaskGroup reached by [p]
    act on it as on an ordered dictionary; deleting an absent name is a
    KeyError and changes nothing. *)
Theorem C116_group : forall fuel h root p l agg ms k m s,
  walk h root p = Ok l -> shows h l (MGrp agg ms) ->
  (exists h', apply fuel root h (HPut p k m) = (h', Ok tt) /\ shows h' l (MGrp agg (dset k m ms))) /\
  (dget k ms <> None -> exists h', apply fuel root h (HDel p k) = (h', Ok tt) /\ shows h' l (MGrp agg (ddel k ms))) /\
  (dget k ms = None -> apply fuel root h (HDel p k) = (h, Err KeyError)) /\
  (exists h', apply fuel root h (HAgg p s) = (h', Ok tt) /\ shows h' l (MGrp s ms)).
Proof.
  intros fuel h root p l agg ms k m s HW HS. inversion HS as [|? ? kids ? E HK]; subst.
  assert (SET : forall (h0 : heap) o, nth_error h0 l <> None -> nth_error (set_nth h0 l o) l = Some o).
  { intros h0 o H0. rewrite set_nth_nth, Nat.eqb_refl. destruct (nth_error h0 l); congruence. }
  cbn [apply]. rewrite HW, E. split; [|split; [|split]].
  - destruct (build_correct m h) as (h1 & c & Hb & HG & Hge & Hm). rewrite Hb. eexists. split; [reflexivity|].
    assert (E' : nth_error h1 l = Some (OGrp agg kids)).
    { destruct HG as (_ & F & _). rewrite F; [exact E | apply nth_error_Some; congruence | intros []]. }
    econstructor; [apply SET; congruence|]. apply shows_kids_dset.
    + apply (set_grp_shows_kids h1 l _ agg ms kids); auto using incl_refl.
      * eapply grows_shows; eauto.
      * eapply grows_shows_kids; eauto.
      * eapply grows_shows_kids; eauto.
    + apply (shows_ext h1); [exact Hm|]. intros x Hx. rewrite set_nth_nth.
      destruct (Nat.eqb_spec l x) as [<-|N]; [|reflexivity]. exfalso.
      assert (Ll : l < length h) by (apply nth_error_Some; congruence).
      assert (CL : length h <= l); [|lia].
      apply (closed_reach h1 (fun y => False \/ length h <= y) c l) in Hx.
      * destruct Hx as [[]|Hx]; exact Hx.
      * apply (confined_closed _ _ _ HG).
      * right; exact Hge.
  - intros HN. destruct (dget k kids) eqn:D.
    + eexists. split; [reflexivity|]. econstructor; [apply SET; congruence|].
      apply (set_grp_shows_kids h l _ agg ms kids); auto.
      * intros q Hq. eapply ddel_incl; exact Hq.
      * apply shows_kids_ddel; exact HK.
    + exfalso. apply HN. apply (shows_kids_dget h k kids ms HK). exact D.
  - intros HN. apply (shows_kids_dget h k kids ms HK) in HN. rewrite HN. reflexivity.
  - eexists. split; [reflexivity|]. econstructor; [apply SET; congruence|].
    apply (set_grp_shows_kids h l _ agg ms kids); auto using incl_refl.
Qed.
Print Assumptions C116_group.

(** A name that is not there is a KeyError, a name looked up in a MaskArray an
    IndexError; every operation then raises that and changes nothing. *)
Theorem C116_bad_path : forall fuel h root m p k rest l agg ms,
  walk h root p = Ok l -> shows h l m ->
  (m = MGrp agg ms -> dget k ms = None -> walk h root (p ++ k :: rest) = Err KeyError) /\
  ((exists d, m = MArr d) -> walk h root (p ++ k :: rest) = Err IndexError) /\
  (forall q e, walk h root q = Err e -> forall x y d v s,
     apply fuel root h (HElem q x v) = (h, Err e) /\ apply fuel root h (HData q d) = (h, Err e) /\
     apply fuel root h (HPut q s y) = (h, Err e) /\ apply fuel root h (HDel q s) = (h, Err e) /\
     apply fuel root h (HAgg q s) = (h, Err e) /\ apply fuel root h (HDrop q s) = (h, Err e)).
Proof.
  intros fuel h root m p k rest l agg ms HW HS.
  assert (APP : forall q, walk h root (p ++ q) = walk h l q).
  { intros q. clear HS. revert root HW. induction p as [|k0 p IH]; intros root HW; cbn [walk app] in *; [congruence|].
    destruct (nth_error h root) as [[d|b|a kids]|]; try discriminate.
    destruct (dget k0 kids) as [c|]; [|discriminate]. apply IH; exact HW. }
  rewrite APP. cbn [walk]. split; [|split].
  - intros -> HD. inversion HS as [|? ? kids ? E HK]; subst. rewrite E.
    apply (shows_kids_dget h k kids ms HK) in HD. rewrite HD. reflexivity.
  - intros (d & ->). inversion HS as [? b ? E1 E2|]; subst. rewrite E1. reflexivity.
  - intros q e Hq x y d v s. cbn [apply]. rewrite Hq. repeat split.
Qed.
Print Assumptions C116_bad_path.

Example C116_case : walk ex_heap 3 ["in"; "x"]%string = Ok 1 /\ shows ex_heap 1 (MArr [true; false]) /\
  apply 10 3 ex_heap (HElem ["in"; "x"]%string (KSlice (Some (-1)%Z) None None) true)
  = (set_nth ex_heap 0 (OBuf [true; true]), Ok tt).
Proof. repeat split. econstructor; reflexivity. Qed.

(** Operations on the wrong kind of mask change nothing (the only exception class
    is per operation): element assignment and data assignment need a MaskArray,
    naming, deleting and recursive_drop a MaskGroup. *)
Theorem C116_wrong_kind : forall fuel h root p l,
  walk h root p = Ok l ->
  (forall agg ms k v d, shows h l (MGrp agg ms) ->
     apply fuel root h (HElem p k v) = (h, Err KeyError) /\ apply fuel root h (HData p d) = (h, Err AttributeError)) /\
  (forall d k m s, shows h l (MArr d) ->
     apply fuel root h (HPut p k m) = (h, Err IndexError) /\ apply fuel root h (HDel p k) = (h, Err AttributeError) /\
     apply fuel root h (HAgg p s) = (h, Ok tt) /\ (0 < fuel -> apply fuel root h (HDrop p k) = (h, Err AttributeError))).
Proof.
  intros fuel h root p l HW. split.
  - intros agg ms k v d HS. inversion HS as [|? ? kids ? E HK]; subst. cbn [apply]. rewrite HW, E. split; reflexivity.
  - intros d k m s HS. inversion HS as [? b ? E1 E2|]; subst. cbn [apply]. rewrite HW, E1.
    repeat split. intros F. destruct fuel; [lia|]. cbn [drop_inplace]. rewrite E1. reflexivity.
Qed.
Print Assumptions C116_wrong_kind.

Example C116_wrong_kind_case :
  let h := [OBuf [true]; OArr 0; OGrp "and" [("a", 1)]]%string in
  snd (apply 9 2 h (HDel ["a"]%string "x")) = Err AttributeError /\ snd (apply 9 2 h (HElem [] (KInt 0) true)) = Err KeyError.
Proof. split; reflexivity. Qed.
