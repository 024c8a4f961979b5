From Verif Require Import Prelude Dict Keys MaskTypes Mask MaskHeap SpecHeap.

Scheme shows_mind := Induction for shows Sort Prop
  with shows_kids_mind := Induction for shows_kids Sort Prop.

(** A set of references closed under following pointers. *)
Definition closed (h : heap) (S : nat -> Prop) : Prop :=
  forall x, S x ->
    match nth_error h x with
    | Some (OArr b) => S b
    | Some (OGrp _ kids) => forall k c, In (k, c) kids -> S c
    | _ => True
    end.

Lemma reach_closed h l : closed h (reach h l).
Proof.
  intros x Hx. induction Hx as [l|l b x E Hx IH|l agg kids k c x E Hk Hx IH].
  - destruct (nth_error h l) as [[d|b|agg kids]|] eqn:E; auto.
    + eapply reach_buf; [exact E | constructor].
    + intros k c Hk. eapply reach_kid; [exact E | exact Hk | constructor].
  - destruct (nth_error h x) as [[d|b'|agg kids]|] eqn:E'; auto.
    + eapply reach_buf; eauto.
    + intros k c Hk. eapply reach_buf; [exact E | eapply IH; exact Hk].
  - destruct (nth_error h x) as [[d|b'|agg' kids']|] eqn:E'; auto.
    + eapply reach_kid; eauto.
    + intros k' c' Hk'. eapply reach_kid; [exact E | exact Hk | eapply IH; exact Hk'].
Qed.

Lemma closed_reach h S l x : closed h S -> S l -> reach h l x -> S x.
Proof.
  intros HC HS Hr. induction Hr as [l|l b x E Hr IH|l agg kids k c x E Hk Hr IH]; [exact HS| |].
  - apply IH. pose proof (HC l HS) as H. rewrite E in H. exact H.
  - apply IH. pose proof (HC l HS) as H. rewrite E in H. eapply H; exact Hk.
Qed.

(** Effect of a mutation confined to [S]. *)
Definition confined (S : nat -> Prop) (h h' : heap) : Prop :=
  length h <= length h' /\
  (forall x, x < length h -> ~ S x -> nth_error h' x = nth_error h x) /\
  closed h' (fun x => S x \/ length h <= x).

Lemma confined_refl (S : nat -> Prop) h : closed h S -> confined S h h.
Proof.
  intros HC. split; [lia|]. split; [auto|]. intros x Hx.
  destruct (nth_error h x) as [o|] eqn:E; [|exact I].
  assert (x < length h) by (apply nth_error_Some; congruence).
  destruct Hx as [Hx|Hx]; [|lia]. specialize (HC x Hx). rewrite E in HC.
  destruct o as [d|b|agg kids]; auto. intros k c Hk. left; eapply HC; exact Hk.
Qed.

Lemma confined_trans (S : nat -> Prop) h1 h2 h3 :
  confined S h1 h2 -> confined (fun x => S x \/ length h1 <= x) h2 h3 -> confined S h1 h3.
Proof.
  intros (L1 & F1 & C1) (L2 & F2 & C2). split; [lia|]. split.
  - intros x Hx HS. rewrite F2; [apply F1; assumption | lia|]. intros [H|H]; [auto | lia].
  - intros x Hx. assert (Hx' : (S x \/ length h1 <= x) \/ length h2 <= x) by tauto.
    specialize (C2 x Hx'). destruct (nth_error h3 x) as [[d|b|agg kids]|]; auto.
    + destruct C2 as [C2|C2]; [exact C2 | right; lia].
    + intros k c Hk. destruct (C2 k c Hk) as [H|H]; [exact H | right; lia].
Qed.

Lemma nth_error_app_old {A} (l r : list A) x : x < length l -> nth_error (l ++ r) x = nth_error l x.
Proof. intros H; apply nth_error_app1; exact H. Qed.

Lemma confined_alloc (S : nat -> Prop) h o :
  closed h S ->
  (match o with OBuf _ => True | OArr b => S b \/ length h <= b
   | OGrp _ kids => forall k c, In (k, c) kids -> S c \/ length h <= c end) ->
  confined S h (h ++ [o]).
Proof.
  intros HC Ho. split; [rewrite app_length; lia|]. split.
  - intros x Hx _. apply nth_error_app_old; exact Hx.
  - intros x Hx. destruct (Nat.lt_ge_cases x (length h)) as [Hl|Hl].
    + rewrite nth_error_app_old by exact Hl. destruct Hx as [Hx|Hx]; [|lia].
      specialize (HC x Hx). destruct (nth_error h x) as [[d|b|agg kids]|]; auto.
      intros k c Hk; left; eapply HC; exact Hk.
    + rewrite nth_error_app2 by exact Hl. destruct (x - length h) as [|n]; cbn [nth_error].
      * destruct o; auto.
      * destruct n; exact I.
Qed.

Lemma confined_set (S : nat -> Prop) h l o :
  closed h S -> S l ->
  (match o with OBuf _ => True | OArr b => S b
   | OGrp _ kids => forall k c, In (k, c) kids -> S c end) ->
  confined S h (set_nth h l o).
Proof.
  intros HC Hl Ho. split; [rewrite set_nth_length; lia|]. split.
  - intros x Hx HS. rewrite set_nth_nth. destruct (Nat.eqb_spec l x) as [->|]; [contradiction | reflexivity].
  - intros x Hx. rewrite set_nth_nth. destruct (Nat.eqb_spec l x) as [->|Hne].
    + destruct (nth_error h x); [|exact I]. destruct o as [d|b|agg kids]; auto.
      intros k c Hk; left; eapply Ho; exact Hk.
    + destruct (nth_error h x) as [o'|] eqn:E; [|exact I].
      assert (x < length h) by (apply nth_error_Some; congruence).
      destruct Hx as [Hx|Hx]; [|lia]. specialize (HC x Hx). rewrite E in HC.
      destruct o' as [d|b|agg kids]; auto. intros k c Hk; left; eapply HC; exact Hk.
Qed.

Lemma confined_closed S h h' : confined S h h' -> closed h' (fun x => S x \/ length h <= x).
Proof. intros (_ & _ & H); exact H. Qed.

Lemma closed_old h : closed h (fun _ => True).
Proof. intros x _. destruct (nth_error h x) as [[]|]; auto. Qed.

Lemma closed_empty h : closed h (fun _ => False).
Proof. intros x []. Qed.

(** Observed values and reachable objects only depend on the reachable part. *)
Lemma shows_ext h h' l m :
  shows h l m -> (forall x, reach h l x -> nth_error h' x = nth_error h x) -> shows h' l m.
Proof.
  intros H. revert l m H.
  apply (shows_mind h
    (fun l m _ => (forall x, reach h l x -> nth_error h' x = nth_error h x) -> shows h' l m)
    (fun kids ms _ => (forall k c x, In (k, c) kids -> reach h c x -> nth_error h' x = nth_error h x) -> shows_kids h' kids ms)).
  - intros l b d E1 E2 HF. econstructor.
    + rewrite HF; [exact E1 | constructor].
    + rewrite HF; [exact E2 | eapply reach_buf; [exact E1 | constructor]].
  - intros l agg kids ms E _ IH HF. econstructor.
    + rewrite HF; [exact E | constructor].
    + apply IH. intros k c x Hk Hx. apply HF. eapply reach_kid; eauto.
  - constructor.
  - intros k c m kids ms _ IH1 _ IH2 HF. constructor.
    + apply IH1. intros x Hx. apply (HF k c x); [left; reflexivity | exact Hx].
    + apply IH2. intros k' c' x Hk' Hx. apply (HF k' c' x); [right; exact Hk' | exact Hx].
Qed.

Lemma shows_reach_lt h l m x : shows h l m -> reach h l x -> x < length h.
Proof.
  intros H. revert l m H x.
  apply (shows_mind h
    (fun l m _ => forall x, reach h l x -> x < length h)
    (fun kids ms _ => forall k c x, In (k, c) kids -> reach h c x -> x < length h)).
  - intros l b d E1 E2 x Hx. inversion Hx as [|? b' ? E Hb|? ? ? ? ? ? E]; subst.
    + apply nth_error_Some; congruence.
    + assert (b' = b) by congruence; subst b'.
      inversion Hb as [|? ? ? E'|? ? ? ? ? ? E']; subst; [apply nth_error_Some; congruence | congruence | congruence].
    + congruence.
  - intros l agg kids ms E _ IH x Hx. inversion Hx as [|? b' ? E' Hb|? ? kids' k c ? E' Hk Hr]; subst.
    + apply nth_error_Some; congruence.
    + congruence.
    + assert (kids' = kids) by congruence; subst kids'. eapply IH; eauto.
  - intros k c x [].
  - intros k c m kids ms _ IH1 _ IH2 k' c' x [E|Hk] Hx; [injection E as -> ->; auto | eauto].
Qed.

Lemma shows_fun h l m : shows h l m -> forall m', shows h l m' -> m = m'.
Proof.
  intros H. revert l m H.
  apply (shows_mind h (fun l m _ => forall m', shows h l m' -> m = m')
                      (fun kids ms _ => forall ms', shows_kids h kids ms' -> ms = ms')).
  - intros l b d E1 E2 m' H. inversion H; subst; congruence.
  - intros l agg kids ms E _ IH m' H. inversion H as [|? ? kids' ms' E' HK]; subst; [congruence|].
    assert (kids' = kids /\ agg0 = agg) as [-> ->] by (split; congruence). f_equal. apply IH; exact HK.
  - intros ms' H; inversion H; reflexivity.
  - intros k c m kids ms _ IH1 _ IH2 ms' H. inversion H; subst. f_equal; [f_equal; auto | auto].
Qed.

Lemma confined_shows (S : nat -> Prop) h h' g m :
  confined S h h' -> shows h g m -> (forall x, reach h g x -> ~ S x) -> shows h' g m.
Proof.
  intros (_ & F & _) HS HD. apply (shows_ext h); [exact HS|].
  intros x Hx. apply F; [eapply shows_reach_lt; eauto | auto].
Qed.

(** * copy *)

Lemma copy_grp fuel h l agg kids :
  nth_error h l = Some (OGrp agg kids) ->
  copy (S fuel) h l =
  hbind ((fix go (ks : list (string * nat)) (h : heap) : hres (list (string * nat)) :=
                    match ks with
                    | [] => (h, Ok [])
                    | p :: r =>
                        hbind (copy fuel h (snd p)) (fun h1 c =>
                        hbind (go r h1) (fun h2 cs => (h2, Ok ((fst p, c) :: cs))))
                    end) kids h)
                (fun h1 kids' => let (h2, l') := alloc h1 (OGrp agg kids') in (h2, Ok l')).
Proof. intros E. cbn [copy]. rewrite E. reflexivity. Qed.

Definition copy_go (fuel : nat) :=
  fix go (ks : list (string * nat)) (h : heap) : hres (list (string * nat)) :=
    match ks with
    | [] => (h, Ok [])
    | p :: r =>
        hbind (copy fuel h (snd p)) (fun h1 c =>
        hbind (go r h1) (fun h2 cs => (h2, Ok ((fst p, c) :: cs))))
    end.

(** Everything copy allocates is new and only points to new objects. *)
Definition grows (h h' : heap) : Prop := confined (fun _ => False) h h'.

Lemma grows_refl h : grows h h.
Proof. apply confined_refl, closed_empty. Qed.

Lemma grows_trans h1 h2 h3 : grows h1 h2 -> grows h2 h3 -> grows h1 h3.
Proof.
  intros H1 H2. eapply confined_trans; [exact H1|]. destruct H1 as (L1 & F1 & C1), H2 as (L2 & F2 & C2).
  split; [exact L2|]. split.
  - intros x Hx _. apply F2; [exact Hx | intros []].
  - intros x Hx. destruct (Nat.lt_ge_cases x (length h2)) as [Hl|Hl].
    + rewrite F2 by (auto; intros []). assert (Hx' : False \/ length h1 <= x) by (destruct Hx as [[[]|H]|H]; auto; lia).
      specialize (C1 x Hx'). destruct (nth_error h2 x) as [[d|b|agg kids]|]; auto.
      intros k c Hk. left. eapply C1; exact Hk.
    + specialize (C2 x (or_intror Hl)). destruct (nth_error h3 x) as [[d|b|agg kids]|]; auto.
      * destruct C2 as [[]|C2]; auto.
      * intros k c Hk. destruct (C2 k c Hk) as [[]|H]; auto.
Qed.

Lemma grows_shows h h' g m : grows h h' -> shows h g m -> shows h' g m.
Proof. intros HG HS. eapply confined_shows; [exact HG | exact HS | auto]. Qed.

Lemma grows_shows_kids h h' kids ms : grows h h' -> shows_kids h kids ms -> shows_kids h' kids ms.
Proof.
  intros HG HS. induction HS as [|k c m kids ms Hc HS IH]; constructor; [eapply grows_shows; eauto | exact IH].
Qed.

Lemma grows_alloc_buf h d : grows h (h ++ [OBuf d]).
Proof. apply confined_alloc; [apply closed_empty | exact I]. Qed.

Lemma shows_alloc_arr h d :
  let h2 := (h ++ [OBuf d]) ++ [OArr (length h)] in
  grows h h2 /\ shows h2 (length (h ++ [OBuf d])) (MArr d).
Proof.
  cbn zeta. split.
  - eapply confined_trans; [apply grows_alloc_buf|]. apply confined_alloc.
    + apply (confined_closed _ _ _ (grows_alloc_buf h d)).
    + left; right; lia.
  - econstructor.
    + rewrite nth_error_app2 by lia. rewrite Nat.sub_diag. reflexivity.
    + rewrite nth_error_app1 by (rewrite app_length; cbn; lia).
      rewrite nth_error_app2 by lia. rewrite Nat.sub_diag. reflexivity.
Qed.

Lemma depth_kid agg kids k v : In (k, v) kids -> depth v < depth (MGrp agg kids).
Proof.
  cbn [depth]. induction kids as [|[k0 v0] kids IH]; [intros []|]. cbn [fold_right snd].
  intros [E|H]; [injection E as -> ->; lia | specialize (IH H); lia].
Qed.

Lemma grows_alloc_grp h0 h agg kids :
  grows h0 h -> (forall k c, In (k, c) kids -> length h0 <= c) -> grows h0 (h ++ [OGrp agg kids]).
Proof.
  intros HG HK. eapply confined_trans; [exact HG|]. apply confined_alloc.
  - apply (confined_closed _ _ _ HG).
  - intros k c Hk. left; right; eauto.
Qed.

Lemma copy_correct m : forall fuel h l,
  shows h l m -> depth m <= fuel ->
  exists h' l', copy fuel h l = (h', Ok l') /\ grows h h' /\ length h <= l' /\ shows h' l' m.
Proof.
  induction m as [d|agg ms IH] using mask_ind'; intros fuel h l HS HD.
  - destruct fuel as [|fuel]; [cbn in HD; lia|]. inversion HS as [? b ? E1 E2|]; subst.
    cbn [copy]. rewrite E1, E2. cbn [alloc].
    destruct (shows_alloc_arr h d) as [HG HS']. eexists _, _. split; [reflexivity|].
    split; [exact HG|]. split; [rewrite app_length; lia | exact HS'].
  - destruct fuel as [|fuel]; [cbn in HD; lia|]. inversion HS as [|? ? kids ? E HK]; subst.
    rewrite (copy_grp fuel h l agg kids E).
    change (fix go (ks : list (string * nat)) (h : heap) : hres (list (string * nat)) := _) with (copy_go fuel).
    assert (HDk : forall k v, In (k, v) ms -> depth v <= fuel).
    { intros k v Hkv. pose proof (depth_kid agg ms k v Hkv). lia. }
    assert (Hgo : exists h1 kids', copy_go fuel kids h = (h1, Ok kids') /\ grows h h1 /\
                   (forall k c, In (k, c) kids' -> length h <= c) /\ shows_kids h1 kids' ms).
    { clear HD E HS. revert h kids HK. induction ms as [|[k m] ms IHm]; intros h kids HK; inversion HK as [|? c ? kids0 ? Hc HK']; subst.
      - exists h, []. cbn. split; [reflexivity|]. split; [apply grows_refl|]. split; [intros ? ? []|constructor].
      - inversion IH as [|? ? IH0 IH']; subst. cbn [snd] in IH0.
        destruct (IH0 fuel h c Hc) as (h1 & c' & Hcp & HG1 & Hge & HS1); [apply (HDk k m); left; reflexivity|].
        destruct (IHm IH') with (h := h1) (kids := kids0) as (h2 & kids' & Hgo & HG2 & Hge2 & HS2).
        + intros k' v' Hkv; apply (HDk k' v'); right; exact Hkv.
        + eapply grows_shows_kids; eauto.
        + exists h2, ((k, c') :: kids'). cbn [copy_go fst snd]. rewrite Hcp. cbn [hbind].
          change ((fix go (ks : list (string * nat)) (h : heap) {struct ks} : hres (list (string * nat)) :=
            match ks with
            | [] => (h, Ok [])
            | p :: r => hbind (copy fuel h (snd p)) (fun h1 c => hbind (go r h1) (fun h2 cs => (h2, Ok ((fst p, c) :: cs))))
            end) kids0 h1) with (copy_go fuel kids0 h1).
          rewrite Hgo. cbn [hbind]. split; [reflexivity|]. split; [eapply grows_trans; eauto|].
          assert (length h <= length h1) by apply HG1.
          split.
          * intros k' c'' [E'|Hk]; [injection E' as <- <-; exact Hge | apply Hge2 in Hk; lia].
          * constructor; [eapply grows_shows; eauto | exact HS2]. }
    destruct Hgo as (h1 & kids' & Hgo & HG & Hge & HK'). rewrite Hgo. cbn [hbind alloc].
    eexists _, _. split; [reflexivity|].
    assert (HG' : grows h (h1 ++ [OGrp agg kids'])) by (apply grows_alloc_grp; assumption).
    split; [exact HG'|]. split; [apply HG|]. econstructor.
    + rewrite nth_error_app2 by lia. rewrite Nat.sub_diag. reflexivity.
    + (* the new group is only appended *)
      assert (HA : forall kids ms, shows_kids h1 kids ms -> shows_kids (h1 ++ [OGrp agg kids']) kids ms).
      { intros kk mm Hkk. induction Hkk as [|k0 c0 m0 kk mm Hc0 Hkk IHkk]; constructor; [|exact IHkk].
        apply (shows_ext h1); [exact Hc0|]. intros x Hx. apply nth_error_app_old. eapply shows_reach_lt; eauto. }
      apply HA; exact HK'.
Qed.

(** * drop_inplace *)

Definition drop_go (fuel : nat) (key : string) :=
  fix go (ks : list (string * nat)) (h : heap) : hres unit :=
    match ks with
    | [] => (h, Ok tt)
    | p :: r =>
        match nth_error h (snd p) with
        | Some (OGrp _ _) => hbind (drop_inplace fuel key h (snd p)) (fun h1 _ => go r h1)
        | _ => go r h
        end
    end.

Lemma drop_grp fuel key h l agg kids :
  nth_error h l = Some (OGrp agg kids) ->
  drop_inplace (S fuel) key h l =
  drop_go fuel key (match dget key kids with Some _ => ddel key kids | None => kids end)
    (set_nth h l (OGrp agg (match dget key kids with Some _ => ddel key kids | None => kids end))).
Proof. intros E. cbn [drop_inplace]. rewrite E. reflexivity. Qed.

Lemma ddel_incl {A} key (kids : list (string * A)) p : In p (ddel key kids) -> In p kids.
Proof.
  induction kids as [|[k v] kids IH]; [auto|]. cbn [ddel].
  destruct (String.eqb key k); [right; exact H | intros [<-|H]; [left; reflexivity | right; auto]].
Qed.

Lemma del_incl {A} key (kids : list (string * A)) p :
  In p (match dget key kids with Some _ => ddel key kids | None => kids end) -> In p kids.
Proof. destruct (dget key kids); [apply ddel_incl | auto]. Qed.

Lemma drop_confined fuel : forall key h l (S : nat -> Prop),
  closed h S -> S l -> confined S h (fst (drop_inplace fuel key h l)) /\
                       length (fst (drop_inplace fuel key h l)) = length h.
Proof.
  induction fuel as [|fuel IH]; intros key h l S HC HS; [split; [apply confined_refl; exact HC | reflexivity]|].
  destruct (nth_error h l) as [[d|b|agg kids]|] eqn:E;
    try (cbn [drop_inplace]; rewrite E; cbn [fst]; split; [apply confined_refl; exact HC | reflexivity]).
  rewrite (drop_grp fuel key h l agg kids E).
  set (kids' := match dget key kids with Some _ => ddel key kids | None => kids end).
  assert (HK : forall k c, In (k, c) kids' -> S c).
  { intros k c Hk. apply del_incl in Hk. pose proof (HC l HS) as Hl. rewrite E in Hl. eapply Hl; exact Hk. }
  assert (H1 : confined S h (set_nth h l (OGrp agg kids'))) by (apply confined_set; assumption).
  assert (L1 : length (set_nth h l (OGrp agg kids')) = length h) by apply set_nth_length.
  set (h1 := set_nth h l (OGrp agg kids')) in *.
  assert (Hgo : forall ks h2, (forall k c, In (k, c) ks -> S c) -> confined S h h2 -> length h2 = length h ->
     confined S h (fst (drop_go fuel key ks h2)) /\ length (fst (drop_go fuel key ks h2)) = length h).
  { induction ks as [|p ks IHks]; intros h2 HKs H2 L2; [split; assumption|]. cbn [drop_go].
    assert (HKs' : forall k c, In (k, c) ks -> S c) by (intros k c Hk; apply (HKs k c); right; exact Hk).
    destruct (nth_error h2 (snd p)) as [[d2|b2|a2 k2]|]; try (apply IHks; assumption).
    assert (HCl : closed h2 (fun x => S x \/ length h <= x)) by apply H2.
    assert (HSp : S (snd p) \/ length h <= snd p) by (left; apply (HKs (fst p)); left; destruct p; reflexivity).
    destruct (IH key h2 (snd p) _ HCl HSp) as [H3 L3].
    destruct (drop_inplace fuel key h2 (snd p)) as [h3 [u|e]]; cbn [hbind fst] in *.
    - apply IHks; [exact HKs'| |lia]. eapply confined_trans; [exact H2 | exact H3].
    - split; [eapply confined_trans; [exact H2 | exact H3] | lia]. }
  apply Hgo; auto.
Qed.

(** Only deletions of [key] happen. *)
Definition deleted (key : string) (h h' : heap) : Prop :=
  length h' = length h /\
  forall x, nth_error h' x = nth_error h x \/
    exists agg kids, nth_error h x = Some (OGrp agg kids) /\ nth_error h' x = Some (OGrp agg (ddel key kids)).

Lemma ddel_absent {A} key (kids : list (string * A)) : dget key kids = None -> ddel key kids = kids.
Proof.
  induction kids as [|[k v] kids IH]; [auto|]. cbn [dget ddel].
  destruct (String.eqb key k); [discriminate | intros H; rewrite IH; auto].
Qed.

Lemma deleted_refl key h : deleted key h h.
Proof. split; [reflexivity | auto]. Qed.

Lemma deleted_trans key h1 h2 h3 : hwf h1 -> deleted key h1 h2 -> deleted key h2 h3 -> deleted key h1 h3.
Proof.
  intros HW [L1 D1] [L2 D2]. split; [lia|]. intros x.
  destruct (D2 x) as [E2|(a2 & k2 & E2 & E2')].
  - rewrite E2. apply D1.
  - right. destruct (D1 x) as [E1|(a1 & k1 & E1 & E1')].
    + exists a2, k2. split; [congruence | exact E2'].
    + exists a1, k1. split; [exact E1|]. rewrite E2'. rewrite E1' in E2. injection E2 as <- <-.
      rewrite (ddel_absent key (ddel key k1)); [reflexivity|].
      rewrite dget_ddel by (eapply HW; exact E1). rewrite String.eqb_refl. reflexivity.
Qed.

Lemma deleted_hwf key h h' : hwf h -> deleted key h h' -> hwf h'.
Proof.
  intros HW [_ D] x agg kids E. destruct (D x) as [E'|(a & k & E1 & E2)].
  - eapply HW. rewrite <- E'. exact E.
  - rewrite E2 in E. injection E as <- <-. apply ddel_NoDup. eapply HW; exact E1.
Qed.

(** No group reachable from [l] still holds [key]. *)
Definition clean (key : string) (h : heap) (l : nat) : Prop :=
  forall x agg kids, reach h l x -> nth_error h x = Some (OGrp agg kids) -> dget key kids = None.

Lemma deleted_reach key h h' l x : deleted key h h' -> reach h' l x -> reach h l x.
Proof.
  intros [_ D] Hr. induction Hr as [l|l b x E Hr IH|l agg kids k c x E Hk Hr IH]; [constructor| |].
  - destruct (D l) as [E'|(a & ks & E1 & E2)]; [|congruence]. eapply reach_buf; [rewrite <- E'; exact E | exact IH].
  - destruct (D l) as [E'|(a & ks & E1 & E2)].
    + eapply reach_kid; [rewrite <- E'; exact E | exact Hk | exact IH].
    + rewrite E2 in E. injection E as <- <-. eapply reach_kid; [exact E1 | apply ddel_incl in Hk; exact Hk | exact IH].
Qed.

Lemma clean_deleted key h h' l : hwf h -> deleted key h h' -> clean key h l -> clean key h' l.
Proof.
  intros HW D HC x agg kids Hr E. pose proof (deleted_reach key h h' l x D Hr) as Hr'.
  destruct (proj2 D x) as [E'|(a & ks & E1 & E2)].
  - eapply HC; [exact Hr' | rewrite <- E'; exact E].
  - rewrite E2 in E. injection E as <- <-. rewrite dget_ddel by (eapply HW; exact E1).
    rewrite String.eqb_refl. reflexivity.
Qed.

(** Well-shaped and of bounded nesting below [l]. *)
Fixpoint hdepth (h : heap) (n : nat) (l : nat) : Prop :=
  match n with
  | 0 => False
  | S n' => match nth_error h l with
            | Some (OGrp _ kids) => forall k c, In (k, c) kids -> hdepth h n' c
            | Some (OArr b) => exists d, nth_error h b = Some (OBuf d)
            | _ => False
            end
  end.

Lemma hdepth_deleted key h h' n : deleted key h h' -> forall l, hdepth h n l -> hdepth h' n l.
Proof.
  intros [L D]. induction n as [|n IH]; intros l H; [destruct H|]. cbn [hdepth] in *.
  destruct (D l) as [E|(a & ks & E1 & E2)].
  - rewrite E. destruct (nth_error h l) as [[d|b|agg kids]|]; auto.
    + destruct H as (d & Hd). destruct (D b) as [Eb|(a & ks & E1 & E2)]; [|congruence].
      exists d; congruence.
    + intros k c Hk. apply IH. eapply H; exact Hk.
  - rewrite E1 in H. rewrite E2. intros k c Hk. apply IH. apply ddel_incl in Hk. eapply H; exact Hk.
Qed.

Lemma shows_hdepth h m : forall l n, shows h l m -> depth m <= n -> hdepth h n l.
Proof.
  induction m as [d|agg ms IH] using mask_ind'; intros l n HS HD; destruct n as [|n]; try (cbn in HD; lia).
  - inversion HS as [? b ? E1 E2|]; subst. cbn [hdepth]. rewrite E1. eauto.
  - inversion HS as [|? ? kids ? E HK]; subst. cbn [hdepth]. rewrite E.
    assert (HDk : forall k v, In (k, v) ms -> depth v <= n).
    { intros k v Hkv. pose proof (depth_kid agg ms k v Hkv). lia. }
    clear E HS HD. induction HK as [|k c m kids ms Hc HK IHK]; intros k' c' Hk'; [destruct Hk'|].
    inversion IH as [|? ? IH0 IH']; subst. destruct Hk' as [E|Hk'].
    + injection E as <- <-. apply IH0; [exact Hc | apply (HDk k m); left; reflexivity].
    + eapply IHK; [exact IH' | intros k0 v0 H0; apply (HDk k0 v0); right; exact H0 | exact Hk'].
Qed.

Lemma clean_arr key h l b d :
  nth_error h l = Some (OArr b) -> nth_error h b = Some (OBuf d) -> clean key h l.
Proof.
  intros E1 E2 x agg kids Hr Ex. inversion Hr as [|? b' ? E Hb|? ? ? ? ? ? E]; subst; try congruence.
  assert (b' = b) by congruence; subst b'. inversion Hb; subst; congruence.
Qed.

Lemma drop_correct key fuel : forall h l agg kids,
  hwf h -> hdepth h fuel l -> nth_error h l = Some (OGrp agg kids) ->
  exists h', drop_inplace fuel key h l = (h', Ok tt) /\ deleted key h h' /\ clean key h' l /\
             nth_error h' l = Some (OGrp agg (ddel key kids)).
Proof.
  induction fuel as [|fuel IH]; intros h l agg kids HW HD E; [destruct HD|].
  rewrite (drop_grp fuel key h l agg kids E).
  set (kids' := match dget key kids with Some _ => ddel key kids | None => kids end).
  assert (Ek : kids' = ddel key kids).
  { unfold kids'. destruct (dget key kids) eqn:G; [reflexivity | symmetry; apply ddel_absent; exact G]. }
  set (h1 := set_nth h l (OGrp agg kids')).
  assert (Hnth : forall x, nth_error h1 x = if Nat.eqb l x then Some (OGrp agg kids') else nth_error h x).
  { intros x. unfold h1. rewrite set_nth_nth. destruct (Nat.eqb_spec l x) as [<-|]; [rewrite E|]; reflexivity. }
  assert (D1 : deleted key h h1).
  { split; [apply set_nth_length|]. intros x. rewrite Hnth. destruct (Nat.eqb_spec l x) as [<-|]; [|left; reflexivity].
    right. exists agg, kids. rewrite Ek. auto. }
  assert (HW1 : hwf h1) by (eapply deleted_hwf; eauto).
  assert (HK : forall k c, In (k, c) kids' -> hdepth h1 fuel c).
  { intros k c Hk. eapply hdepth_deleted; [exact D1|]. cbn [hdepth] in HD. rewrite E in HD.
    apply (HD k c). rewrite Ek in Hk. apply ddel_incl in Hk. exact Hk. }
  assert (Hgo : forall ks h2, hwf h2 -> (forall k c, In (k, c) ks -> hdepth h2 fuel c) ->
     exists h', drop_go fuel key ks h2 = (h', Ok tt) /\ deleted key h2 h' /\
                (forall k c, In (k, c) ks -> clean key h' c)).
  { induction ks as [|p ks IHks]; intros h2 HW2 HK2.
    - exists h2. split; [reflexivity|]. split; [apply deleted_refl | intros ? ? []].
    - cbn [drop_go].
      assert (HKs : forall k c, In (k, c) ks -> hdepth h2 fuel c) by (intros k c Hk; apply (HK2 k c); right; exact Hk).
      assert (HKp : hdepth h2 fuel (snd p)) by (apply (HK2 (fst p)); left; destruct p; reflexivity).
      assert (Hfuel : exists fuel', fuel = S fuel') by (destruct fuel; [destruct HKp | eauto]).
      destruct Hfuel as (fuel' & Ef).
      destruct (nth_error h2 (snd p)) as [[d2|b2|a2 k2]|] eqn:Ep;
        try (exfalso; rewrite Ef in HKp; cbn [hdepth] in HKp; rewrite Ep in HKp; exact HKp).
      + destruct (IHks h2 HW2 HKs) as (h' & G1 & G2 & G3). exists h'. split; [exact G1|]. split; [exact G2|].
        intros k c [Hk|Hk]; [|eauto]. subst p. cbn [snd] in Ep, HKp. eapply clean_deleted; [exact HW2 | exact G2|].
        rewrite Ef in HKp. cbn [hdepth] in HKp. rewrite Ep in HKp. destruct HKp as (d & Hd). eapply clean_arr; eauto.
      + destruct (IH h2 (snd p) a2 k2 HW2 HKp Ep) as (h3 & F1 & F2 & F3 & _). rewrite F1. cbn [hbind].
        destruct (IHks h3) as (h' & G1 & G2 & G3).
        * eapply deleted_hwf; eauto.
        * intros k c Hk. eapply hdepth_deleted; eauto.
        * exists h'. split; [exact G1|]. split; [eapply deleted_trans; eauto|].
          intros k c [Hk|Hk]; [|eauto]. subst p. eapply clean_deleted; [|exact G2 | exact F3].
          eapply deleted_hwf; eauto. }
  destruct (Hgo kids' h1 HW1 HK) as (h' & G1 & G2 & G3). exists h'. split; [exact G1|].
  split; [eapply deleted_trans; eauto|].
  assert (Ndel : dget key kids' = None).
  { rewrite Ek, dget_ddel by (eapply HW; exact E). rewrite String.eqb_refl. reflexivity. }
  assert (El : nth_error h' l = Some (OGrp agg kids')).
  { assert (El1 : nth_error h1 l = Some (OGrp agg kids')) by (rewrite Hnth, Nat.eqb_refl; reflexivity).
    destruct (proj2 G2 l) as [El|(a & ks & E1 & E2)]; [congruence|].
    rewrite El1 in E1. injection E1 as <- <-. rewrite E2, ddel_absent by exact Ndel. reflexivity. }
  split; [|rewrite El, Ek; reflexivity].
  intros x a ks Hr Ex. inversion Hr as [|? b ? Eb|? a' kids2 k c ? E' Hk Hc]; subst.
  - rewrite El in Ex. injection Ex as <- <-. exact Ndel.
  - congruence.
  - rewrite El in E'. injection E' as <- <-. eapply G3; [exact Hk | exact Hc | exact Ex].
Qed.

(** After the in-place drop, every observer sees the dropped value. *)
Lemma deleted_shows key h h' : hwf h -> deleted key h h' -> forall m l,
  shows h l m -> clean key h' l -> shows h' l (recursive_drop key m).
Proof.
  intros HW HD. induction m as [d|agg ms IH] using mask_ind'; intros l HS HC.
  - inversion HS as [? b ? E1 E2|]; subst. cbn [recursive_drop]. destruct HD as [_ D]. econstructor.
    + destruct (D l) as [E|(a & ks & Ea & _)]; [rewrite E; exact E1 | congruence].
    + destruct (D b) as [E|(a & ks & Ea & _)]; [rewrite E; exact E2 | congruence].
  - inversion HS as [|? ? kids ? E HK]; subst. cbn [recursive_drop].
    assert (El : nth_error h' l = Some (OGrp agg (ddel key kids))).
    { destruct (proj2 HD l) as [E'|(a & ks & E1 & E2)].
      - rewrite E', E. rewrite ddel_absent; [reflexivity|].
        eapply HC; [constructor | rewrite E'; exact E].
      - congruence. }
    econstructor; [exact El|].
    assert (HCk : forall k c, In (k, c) (ddel key kids) -> clean key h' c).
    { intros k c Hk x a ks Hr Ex. eapply HC; [|exact Ex]. eapply reach_kid; [exact El | exact Hk | exact Hr]. }
    clear E El HS HC. induction HK as [|k c m kids ms Hc HK IHK]; [constructor|].
    inversion IH as [|? ? IH0 IH']; subst. cbn [map ddel fst snd].
    destruct (String.eqb key k) eqn:Ek.
    + cbn [ddel] in HCk. rewrite Ek in HCk. clear IHK IH0 Hc IH.
      induction HK as [|k1 c1 m1 kids ms Hc1 HK IHK1]; [constructor|].
      inversion IH' as [|? ? IH1 IH1']; subst. cbn [map fst snd]. constructor.
      * apply IH1; [exact Hc1 | apply (HCk k1); left; reflexivity].
      * apply IHK1; [intros k2 c2 H2; apply (HCk k2 c2); right; exact H2 | exact IH1'].
    + cbn [ddel] in HCk. rewrite Ek in HCk. constructor.
      * apply IH0; [exact Hc | apply (HCk k); left; reflexivity].
      * apply IHK; [exact IH' | intros k2 c2 H2; apply (HCk k2 c2); right; exact H2].
Qed.

(** * Mutations through a reference stay inside what it reaches (or new objects) *)

Lemma walk_closed h S : closed h S -> forall p root l, S root -> walk h root p = Ok l -> S l.
Proof.
  intros HC. induction p as [|k p IH]; intros root l HS H; cbn [walk] in H; [injection H as <-; exact HS|].
  destruct (nth_error h root) as [[d|b|agg kids]|] eqn:E; try discriminate.
  destruct (dget k kids) as [c|] eqn:G; [|discriminate]. eapply IH; [|exact H].
  pose proof (HC root HS) as Hr. rewrite E in Hr. eapply Hr. apply dget_In; exact G.
Qed.

Definition build_go :=
  fix go (l : list (string * mask)) (h : heap) : heap * list (string * nat) :=
    match l with
    | [] => (h, [])
    | p :: r => let (h1, c) := build (snd p) h in
                let (h2, cs) := go r h1 in (h2, (fst p, c) :: cs)
    end.

Lemma build_correct m : forall h,
  exists h' l, build m h = (h', l) /\ grows h h' /\ length h <= l /\ shows h' l m.
Proof.
  induction m as [d|agg ms IH] using mask_ind'; intros h.
  - cbn [build alloc]. destruct (shows_alloc_arr h d) as [HG HS].
    eexists _, _. split; [reflexivity|]. split; [exact HG|]. split; [rewrite app_length; lia | exact HS].
  - cbn [build]. change (fix go (l : list (string * mask)) (h : heap) {struct l} : heap * list (string * nat) := _) with build_go.
    assert (Hgo : forall h, exists h1 ks, build_go ms h = (h1, ks) /\ grows h h1 /\
                   (forall k c, In (k, c) ks -> length h <= c) /\ shows_kids h1 ks ms).
    { clear h. induction ms as [|[k m] ms IHm]; intros h.
      - exists h, []. split; [reflexivity|]. split; [apply grows_refl|]. split; [intros ? ? [] | constructor].
      - inversion IH as [|? ? IH0 IH']; subst. cbn [snd] in IH0.
        destruct (IH0 h) as (h1 & c & Hb & HG1 & Hge & HS1).
        destruct (IHm IH' h1) as (h2 & ks & Hg & HG2 & Hge2 & HS2).
        exists h2, ((k, c) :: ks). cbn [build_go fst snd]. rewrite Hb.
        change ((fix go (l : list (string * mask)) (h : heap) {struct l} : heap * list (string * nat) := _) ms h1) with (build_go ms h1).
        rewrite Hg. split; [reflexivity|]. split; [eapply grows_trans; eauto|].
        assert (length h <= length h1) by apply HG1. split.
        + intros k' c' [E'|Hk]; [injection E' as <- <-; exact Hge | apply Hge2 in Hk; lia].
        + constructor; [eapply grows_shows; eauto | exact HS2]. }
    destruct (Hgo h) as (h1 & ks & Hg & HG & Hge & HK). rewrite Hg. cbn [alloc].
    eexists _, _. split; [reflexivity|].
    split; [apply grows_alloc_grp; assumption|]. split; [apply HG|]. econstructor.
    + rewrite nth_error_app2 by lia. rewrite Nat.sub_diag. reflexivity.
    + assert (HA : forall kids ms, shows_kids h1 kids ms -> shows_kids (h1 ++ [OGrp agg ks]) kids ms).
      { intros kk mm Hkk. induction Hkk as [|k0 c0 m0 kk mm Hc0 Hkk IHkk]; constructor; [|exact IHkk].
        apply (shows_ext h1); [exact Hc0|]. intros x Hx. apply nth_error_app_old. eapply shows_reach_lt; eauto. }
      apply HA; exact HK.
Qed.

Lemma grows_confined (S : nat -> Prop) h h' : closed h S -> grows h h' -> confined S h h'.
Proof.
  intros HC (L & F & C). split; [exact L|]. split; [intros x Hx _; apply F; [exact Hx | intros []]|].
  intros x Hx. destruct (Nat.lt_ge_cases x (length h)) as [Hl|Hl].
  - rewrite F by (auto; intros []). destruct Hx as [Hx|Hx]; [|lia]. specialize (HC x Hx).
    destruct (nth_error h x) as [[d|b|agg kids]|]; auto. intros k c Hk; left; eapply HC; exact Hk.
  - specialize (C x (or_intror Hl)). destruct (nth_error h' x) as [[d|b|agg kids]|]; auto.
    + destruct C as [[]|C]; auto.
    + intros k c Hk. destruct (C k c Hk) as [[]|H]; auto.
Qed.

Lemma apply_confined fuel root h o (S : nat -> Prop) :
  closed h S -> S root -> confined S h (fst (apply fuel root h o)).
Proof.
  intros HC HS. pose proof (confined_refl S h HC) as Hrefl.
  destruct o as [p k v|p d|p k m|p k|p s|p k]; cbn [apply];
    (destruct (walk h root p) as [l|e] eqn:Hw; [|exact Hrefl]);
    pose proof (walk_closed h S HC p root l HS Hw) as Hl.
  - destruct (nth_error h l) as [[d|b|agg kids]|] eqn:E; try exact Hrefl.
    destruct (nth_error h b) as [[d|b'|agg kids]|] eqn:Eb; try exact Hrefl.
    destruct (resolve (length d) k); [|exact Hrefl]. cbn [fst]. apply confined_set; [exact HC | | exact I].
    pose proof (HC l Hl) as H. rewrite E in H. exact H.
  - destruct (nth_error h l) as [[d'|b|agg kids]|] eqn:E; try exact Hrefl. cbn [alloc fst].
    assert (H1 : confined S h (h ++ [OBuf d])) by (apply confined_alloc; [exact HC | exact I]).
    eapply confined_trans; [exact H1|]. apply confined_set; [apply (confined_closed _ _ _ H1) | left; exact Hl | right; lia].
  - destruct (nth_error h l) as [[d'|b|agg kids]|] eqn:E; try exact Hrefl.
    destruct (build_correct m h) as (h1 & c & Hb & HG & Hge & _). rewrite Hb. cbn [fst].
    pose proof (grows_confined S h h1 HC HG) as H1.
    eapply confined_trans; [exact H1|]. apply confined_set; [apply (confined_closed _ _ _ H1) | left; exact Hl |].
    intros k' c' Hk'. pose proof (HC l Hl) as HCl. rewrite E in HCl.
    assert (Hin : c' = c \/ exists k0, In (k0, c') kids).
    { clear -Hk'. induction kids as [|[k0 c0] kids IH]; cbn [dset] in Hk'.
      - destruct Hk' as [E|[]]. injection E as _ <-. auto.
      - destruct (String.eqb k k0); destruct Hk' as [E|Hk'].
        + injection E as _ <-. auto.
        + right. exists k'. right; exact Hk'.
        + injection E as <- <-. right. exists k0. left; reflexivity.
        + destruct (IH Hk') as [H|(k1 & H)]; [auto | right; exists k1; right; exact H]. }
    destruct Hin as [->|(k0 & Hin)]; [right; exact Hge | left; eapply HCl; exact Hin].
  - destruct (nth_error h l) as [[d'|b|agg kids]|] eqn:E; try exact Hrefl.
    destruct (dget k kids) eqn:G; [|exact Hrefl]. cbn [fst]. apply confined_set; [exact HC | exact Hl |].
    intros k' c' Hk'. pose proof (HC l Hl) as HCl. rewrite E in HCl. apply ddel_incl in Hk'. eapply HCl; exact Hk'.
  - destruct (nth_error h l) as [[d'|b|agg kids]|] eqn:E; try exact Hrefl. cbn [fst].
    apply confined_set; [exact HC | exact Hl |]. pose proof (HC l Hl) as HCl. rewrite E in HCl. exact HCl.
  - apply drop_confined; assumption.
Qed.

Lemma history_confined fuel root ops : forall h (S : nat -> Prop),
  closed h S -> S root -> confined S h (history fuel root h ops).
Proof.
  induction ops as [|o ops IH]; intros h S HC HS; [apply confined_refl; exact HC|]. cbn [history].
  pose proof (apply_confined fuel root h o S HC HS) as H1.
  eapply confined_trans; [exact H1|]. apply IH; [apply (confined_closed _ _ _ H1) | left; exact HS].
Qed.

Lemma history_isolated fuel a b m h ops :
  shows h b m -> (forall x, reach h a x -> reach h b x -> False) ->
  shows (history fuel a h ops) b m.
Proof.
  intros HS HD. eapply confined_shows; [apply (history_confined fuel a ops h (reach h a)) | exact HS |].
  - apply reach_closed.
  - constructor.
  - intros x Hb Ha. eapply HD; eauto.
Qed.

(** Objects of a copy are all new; objects of the original all old. *)
Lemma grows_disjoint h h' l l' m :
  grows h h' -> shows h l m -> length h <= l' ->
  forall x, reach h' l' x -> reach h' l x -> False.
Proof.
  intros HG HS Hl x H1 H2.
  assert (A : length h <= x).
  { destruct HG as (_ & _ & C). assert (H : False \/ length h <= x).
    { eapply (closed_reach h' (fun x => False \/ length h <= x)); [exact C | right; exact Hl | exact H1]. }
    destruct H as [[]|H]; exact H. }
  assert (B : x < length h).
  { assert (HB : reach h l x); [|eapply shows_reach_lt; eauto].
    assert (G : forall y z, reach h' y z -> reach h l y -> reach h l z).
    { intros y z Hyz. induction Hyz as [y|y b z E Hyz IH|y agg kids k c z E Hk Hyz IH]; intros Hy; [exact Hy| |].
      - assert (Hlt : y < length h) by (eapply shows_reach_lt; eauto).
        apply IH. destruct HG as (_ & F & _). rewrite F in E by (auto; intros []).
        pose proof (reach_closed h l y Hy) as HC. rewrite E in HC. exact HC.
      - assert (Hlt : y < length h) by (eapply shows_reach_lt; eauto).
        apply IH. destruct HG as (_ & F & _). rewrite F in E by (auto; intros []).
        pose proof (reach_closed h l y Hy) as HC. rewrite E in HC. eapply HC; exact Hk. }
    eapply G; [exact H2 | constructor]. }
  lia.
Qed.

(** * Dangling references never appear *)

Definition nodangle (h : heap) : Prop := closed h (fun x => x < length h).

Lemma nodangle_alloc h o :
  nodangle h ->
  (match o with OBuf _ => True | OArr b => b <= length h
   | OGrp _ kids => forall k c, In (k, c) kids -> c <= length h end) ->
  nodangle (h ++ [o]).
Proof.
  intros HN Ho x Hx. rewrite app_length in *. cbn [length] in *.
  destruct (Nat.lt_ge_cases x (length h)) as [Hl|Hl].
  - rewrite nth_error_app_old by exact Hl. specialize (HN x Hl).
    destruct (nth_error h x) as [[d|b|agg kids]|]; auto; [lia|].
    intros k c Hk. specialize (HN k c Hk). lia.
  - assert (x = length h) as -> by lia. rewrite nth_error_app2, Nat.sub_diag by lia. cbn [nth_error].
    destruct o as [d|b|agg kids]; auto; [lia|]. intros k c Hk. specialize (Ho k c Hk). lia.
Qed.

Lemma nodangle_set h l o :
  nodangle h ->
  (match o with OBuf _ => True | OArr b => b < length h
   | OGrp _ kids => forall k c, In (k, c) kids -> c < length h end) ->
  nodangle (set_nth h l o).
Proof.
  intros HN Ho x Hx. rewrite set_nth_length in *. rewrite set_nth_nth.
  specialize (HN x Hx). destruct (Nat.eqb_spec l x) as [->|Hne].
  - destruct (nth_error h x); [exact Ho | exact I].
  - exact HN.
Qed.

(** References only disappear. *)
Definition shrunk (h h' : heap) : Prop :=
  length h' = length h /\
  forall x, nth_error h' x = nth_error h x \/
    exists agg kids kids', nth_error h x = Some (OGrp agg kids) /\
      nth_error h' x = Some (OGrp agg kids') /\ incl kids' kids.

Lemma shrunk_refl h : shrunk h h.
Proof. split; [reflexivity | auto]. Qed.

Lemma shrunk_trans h1 h2 h3 : shrunk h1 h2 -> shrunk h2 h3 -> shrunk h1 h3.
Proof.
  intros [L1 D1] [L2 D2]. split; [congruence|]. intros x.
  destruct (D2 x) as [E2|(a2 & k2 & k2' & E2 & E2' & I2)]; [rewrite E2; apply D1|].
  destruct (D1 x) as [E1|(a1 & k1 & k1' & E1 & E1' & I1)].
  - right. exists a2, k2, k2'. rewrite <- E1. auto.
  - right. exists a1, k1, k2'. rewrite E1' in E2. injection E2 as <- <-. split; [exact E1|].
    split; [exact E2'|]. eapply incl_tran; eauto.
Qed.

Lemma shrunk_nodangle h h' : nodangle h -> shrunk h h' -> nodangle h'.
Proof.
  intros HN [L D] x Hx. cbv beta in *. rewrite L in *. specialize (HN x Hx).
  destruct (D x) as [E|(a & k & k' & E & E' & HI)].
  - rewrite E. exact HN.
  - rewrite E'. rewrite E in HN. intros k0 c Hk. apply (HN k0 c). apply HI; exact Hk.
Qed.

Lemma drop_shrunk fuel key : forall h l, shrunk h (fst (drop_inplace fuel key h l)).
Proof.
  induction fuel as [|fuel IH]; intros h l; [apply shrunk_refl|].
  destruct (nth_error h l) as [[d|b|agg kids]|] eqn:E;
    try (cbn [drop_inplace]; rewrite E; apply shrunk_refl).
  rewrite (drop_grp fuel key h l agg kids E).
  set (kids' := match dget key kids with Some _ => ddel key kids | None => kids end).
  assert (Hgo : forall ks h2, shrunk h2 (fst (drop_go fuel key ks h2))).
  { induction ks as [|p ks IHks]; intros h2; [apply shrunk_refl|]. cbn [drop_go].
    destruct (nth_error h2 (snd p)) as [[d2|b2|a2 k2]|]; try apply IHks.
    specialize (IH h2 (snd p)). destruct (drop_inplace fuel key h2 (snd p)) as [h3 [u|e]]; cbn [hbind fst] in *.
    - eapply shrunk_trans; [exact IH | apply IHks].
    - exact IH. }
  eapply shrunk_trans; [|apply Hgo]. split; [apply set_nth_length|]. intros x. rewrite set_nth_nth.
  destruct (Nat.eqb_spec l x) as [<-|]; [|left; reflexivity]. rewrite E. right.
  exists agg, kids, kids'. split; [reflexivity|]. split; [reflexivity|].
  intros p Hp. unfold kids' in Hp. apply del_incl in Hp. exact Hp.
Qed.

Lemma copy_nodangle fuel : forall h l h' r, nodangle h -> copy fuel h l = (h', r) ->
  nodangle h' /\ length h <= length h' /\ (forall c, r = Ok c -> c < length h').
Proof.
  induction fuel as [|fuel IH]; intros h l h' r HN H.
  - injection H as <- <-. split; [exact HN|]. split; [lia | discriminate].
  - destruct (nth_error h l) as [[d|b|agg kids]|] eqn:E;
      try (cbn [copy] in H; rewrite E in H; injection H as <- <-; split; [exact HN|]; split; [lia | discriminate]).
    + cbn [copy] in H. rewrite E in H.
      destruct (nth_error h b) as [[d|b'|agg kids]|] eqn:Eb;
        try (injection H as <- <-; split; [exact HN|]; split; [lia | discriminate]).
      cbn [alloc] in H. injection H as <- <-. split.
      * apply nodangle_alloc; [apply nodangle_alloc; [exact HN | exact I]|]. rewrite app_length; lia.
      * rewrite !app_length. cbn [length]. split; [lia|]. intros c Hc; injection Hc as <-. lia.
    + rewrite (copy_grp fuel h l agg kids E) in H.
      change (fix go (ks : list (string * nat)) (h : heap) : hres (list (string * nat)) := _) with (copy_go fuel) in H.
      assert (Hgo : forall ks h h1 r1, nodangle h -> copy_go fuel ks h = (h1, r1) ->
                nodangle h1 /\ length h <= length h1 /\
                (forall cs, r1 = Ok cs -> forall k c, In (k, c) cs -> c < length h1)).
      { clear -IH. induction ks as [|p ks IHks]; intros h h1 r1 HN H; cbn [copy_go] in H.
        - injection H as <- <-. split; [exact HN|]. split; [lia|]. intros cs Hcs. injection Hcs as <-. intros ? ? [].
        - destruct (copy fuel h (snd p)) as [h2 [c|e]] eqn:Ec; cbn [hbind] in H.
          + destruct (IH _ _ _ _ HN Ec) as (N2 & L2 & C2).
            change ((fix go (ks : list (string * nat)) (h : heap) {struct ks} : hres (list (string * nat)) := _) ks h2)
              with (copy_go fuel ks h2) in H.
            destruct (copy_go fuel ks h2) as [h3 [cs|e]] eqn:Eg; cbn [hbind] in H; injection H as <- <-;
              destruct (IHks _ _ _ N2 Eg) as (N3 & L3 & C3).
            * split; [exact N3|]. split; [lia|]. intros cs' Hcs. injection Hcs as <-.
              intros k0 c0 [Ek|Hk]; [injection Ek as <- <-; specialize (C2 c eq_refl); lia | eapply C3; eauto].
            * split; [exact N3|]. split; [lia | discriminate].
          + injection H as <- <-. destruct (IH _ _ _ _ HN Ec) as (N2 & L2 & C2).
            split; [exact N2|]. split; [exact L2 | discriminate]. }
      destruct (copy_go fuel kids h) as [h1 [ks|e]] eqn:Eg; cbn [hbind alloc] in H; injection H as <- <-;
        destruct (Hgo _ _ _ _ HN Eg) as (N1 & L1 & C1).
      * split; [|rewrite app_length; cbn [length]; split; [lia | intros c Hc; injection Hc as <-; lia]].
        apply nodangle_alloc; [exact N1|]. intros k c Hk. specialize (C1 ks eq_refl k c Hk). lia.
      * split; [exact N1|]. split; [exact L1 | discriminate].
Qed.

Lemma build_nodangle m : forall h h' l, nodangle h -> build m h = (h', l) ->
  nodangle h' /\ length h <= length h' /\ l < length h'.
Proof.
  induction m as [d|agg ms IH] using mask_ind'; intros h h' l HN H.
  - cbn [build alloc] in H. injection H as <- <-. split.
    + apply nodangle_alloc; [apply nodangle_alloc; [exact HN | exact I]|]. rewrite app_length; lia.
    + rewrite !app_length. cbn [length]. lia.
  - cbn [build] in H. change (fix go (l : list (string * mask)) (h : heap) {struct l} : heap * list (string * nat) := _) with build_go in H.
    assert (Hgo : forall h h1 ks, nodangle h -> build_go ms h = (h1, ks) ->
                nodangle h1 /\ length h <= length h1 /\ (forall k c, In (k, c) ks -> c < length h1)).
    { clear -IH. induction ms as [|[k m] ms IHm]; intros h h1 ks HN H; cbn [build_go fst snd] in H.
      - injection H as <- <-. split; [exact HN|]. split; [lia | intros ? ? []].
      - inversion IH as [|? ? IH0 IH']; subst. cbn [snd] in IH0.
        destruct (build m h) as [h2 c] eqn:Eb. destruct (IH0 _ _ _ HN Eb) as (N2 & L2 & C2).
        change ((fix go (l : list (string * mask)) (h : heap) {struct l} : heap * list (string * nat) := _) ms h2) with (build_go ms h2) in H.
        destruct (build_go ms h2) as [h3 cs] eqn:Eg. injection H as <- <-.
        destruct (IHm IH' _ _ _ N2 Eg) as (N3 & L3 & C3). split; [exact N3|]. split; [lia|].
        intros k0 c0 [Ek|Hk]; [injection Ek as <- <-; lia | eapply C3; eauto]. }
    destruct (build_go ms h) as [h1 ks] eqn:Eg. cbn [alloc] in H. injection H as <- <-.
    destruct (Hgo _ _ _ HN Eg) as (N1 & L1 & C1). split.
    + apply nodangle_alloc; [exact N1|]. intros k c Hk. specialize (C1 k c Hk). lia.
    + rewrite app_length. cbn [length]. lia.
Qed.

Lemma dset_In {A} k (c : A) kids k' c' : In (k', c') (dset k c kids) -> c' = c \/ exists k0, In (k0, c') kids.
Proof.
  induction kids as [|[k0 c0] kids IH]; cbn [dset].
  - intros [E|[]]. injection E as _ <-. auto.
  - destruct (String.eqb k k0); intros [E|Hk].
    + injection E as _ <-. auto.
    + right. exists k'. right; exact Hk.
    + injection E as <- <-. right. exists k0. left; reflexivity.
    + destruct (IH Hk) as [H|(k1 & H)]; [auto | right; exists k1; right; exact H].
Qed.

Lemma apply_nodangle fuel root h o : nodangle h -> nodangle (fst (apply fuel root h o)).
Proof.
  intros HN.
  assert (Hkid : forall l agg kids, nth_error h l = Some (OGrp agg kids) -> forall k c, In (k, c) kids -> c < length h).
  { intros l agg kids E k c Hk. assert (Hl : l < length h) by (apply nth_error_Some; congruence).
    specialize (HN l Hl). rewrite E in HN. eapply HN; exact Hk. }
  destruct o as [p k v|p d|p k m|p k|p s|p k]; cbn [apply];
    (destruct (walk h root p) as [l|e] eqn:Hw; [|exact HN]).
  - destruct (nth_error h l) as [[d|b|agg kids]|] eqn:E; try exact HN.
    destruct (nth_error h b) as [[d|b'|agg kids]|] eqn:Eb; try exact HN.
    destruct (resolve (length d) k); [|exact HN]. cbn [fst]. apply nodangle_set; [exact HN | exact I].
  - destruct (nth_error h l) as [[d'|b|agg kids]|] eqn:E; try exact HN. cbn [alloc fst].
    apply nodangle_set; [apply nodangle_alloc; [exact HN | exact I]|]. rewrite app_length; cbn [length]; lia.
  - destruct (nth_error h l) as [[d'|b|agg kids]|] eqn:E; try exact HN.
    destruct (build m h) as [h1 c] eqn:Hb. destruct (build_nodangle m h h1 c HN Hb) as (N1 & L1 & C1). cbn [fst].
    apply nodangle_set; [exact N1|]. intros k' c' Hk'. apply dset_In in Hk'.
    destruct Hk' as [->|(k0 & Hk0)]; [exact C1|]. specialize (Hkid l agg kids E k0 c' Hk0). lia.
  - destruct (nth_error h l) as [[d'|b|agg kids]|] eqn:E; try exact HN.
    destruct (dget k kids) eqn:G; [|exact HN]. cbn [fst]. apply nodangle_set; [exact HN|].
    intros k' c' Hk'. apply ddel_incl in Hk'. eapply Hkid; eauto.
  - destruct (nth_error h l) as [[d'|b|agg kids]|] eqn:E; try exact HN. cbn [fst].
    apply nodangle_set; [exact HN|]. eauto.
  - eapply shrunk_nodangle; [exact HN | apply drop_shrunk].
Qed.

(** * Separation of two references as an invariant of interleaved histories *)

Definition separate (h : heap) (a b : nat) : Prop :=
  nodangle h /\ a < length h /\ b < length h /\ forall x, reach h a x -> reach h b x -> False.

Lemma separate_sym h a b : separate h a b -> separate h b a.
Proof. intros (N & A & B & D). split; [exact N|]. split; [exact B|]. split; [exact A|]. eauto. Qed.

Lemma reach_same h h' b : (forall x, reach h b x -> nth_error h' x = nth_error h x) ->
  forall y x, reach h' y x -> reach h b y -> reach h b x.
Proof.
  intros HF y x Hyx. induction Hyx as [y|y c x E Hyx IH|y agg kids k c x E Hk Hyx IH]; intros Hy; [exact Hy| |].
  - apply IH. rewrite (HF y Hy) in E. pose proof (reach_closed h b y Hy) as HC. rewrite E in HC. exact HC.
  - apply IH. rewrite (HF y Hy) in E. pose proof (reach_closed h b y Hy) as HC. rewrite E in HC. eapply HC; exact Hk.
Qed.

Lemma separate_apply fuel h a b o : separate h a b -> separate (fst (apply fuel a h o)) a b.
Proof.
  intros (N & A & B & D).
  pose proof (apply_confined fuel a h o (reach h a) (reach_closed h a) (reach_refl h a)) as (L & F & C).
  split; [apply apply_nodangle; exact N|]. split; [lia|]. split; [lia|].
  intros x Ha Hb.
  assert (Hlt : forall y, reach h b y -> y < length h) by (intros y Hy; eapply (closed_reach h (fun x => x < length h)); [exact N | exact B | exact Hy]).
  assert (Hb' : reach h b x).
  { eapply (reach_same h (fst (apply fuel a h o)) b); [|exact Hb | constructor].
    intros y Hy. apply F; [apply Hlt; exact Hy | intros Hay; eapply D; eauto]. }
  assert (Ha' : reach h a x \/ length h <= x).
  { eapply (closed_reach _ (fun x => reach h a x \/ length h <= x)); [exact C | left; constructor | exact Ha]. }
  destruct Ha' as [Ha'|Ha']; [eapply D; eauto | specialize (Hlt x Hb'); lia].
Qed.

Lemma separate_apply_shows fuel h a b o m : separate h a b -> shows h b m -> shows (fst (apply fuel a h o)) b m.
Proof.
  intros (N & A & B & D) HS.
  eapply confined_shows; [apply (apply_confined fuel a h o (reach h a)) | exact HS |].
  - apply reach_closed.
  - constructor.
  - intros x Hb Ha. eapply D; eauto.
Qed.

Lemma separate_interleave fuel a b ops : forall h, separate h a b -> separate (interleave fuel a b h ops) a b.
Proof.
  induction ops as [|[s o] ops IH]; intros h HS; [exact HS|]. cbn [interleave]. apply IH. destruct s.
  - apply separate_apply; exact HS.
  - apply separate_sym, separate_apply, separate_sym; exact HS.
Qed.

(** * Keys stay distinct under copying *)

Lemma copy_hwf fuel : forall h l h' r, hwf h -> copy fuel h l = (h', r) -> hwf h'.
Proof.
  assert (Halloc : forall h o, hwf h -> (forall agg kids, o = OGrp agg kids -> NoDup (dkeys kids)) -> hwf (h ++ [o])).
  { intros h o HW Ho x agg kids E. destruct (Nat.lt_ge_cases x (length h)) as [Hl|Hl].
    - rewrite nth_error_app_old in E by exact Hl. eapply HW; exact E.
    - rewrite nth_error_app2 in E by exact Hl. destruct (x - length h) as [|n]; cbn in E.
      + injection E as ->. eapply Ho; reflexivity.
      + destruct n; discriminate. }
  induction fuel as [|fuel IH]; intros h l h' r HW H.
  - injection H as <- <-. exact HW.
  - destruct (nth_error h l) as [[d|b|agg kids]|] eqn:E;
      try (cbn [copy] in H; rewrite E in H; injection H as <- <-; exact HW).
    + cbn [copy] in H. rewrite E in H.
      destruct (nth_error h b) as [[d|b'|agg kids]|] eqn:Eb;
        try (injection H as <- <-; exact HW).
      cbn [alloc] in H. injection H as <- <-. apply Halloc; [apply Halloc; [exact HW | discriminate] | discriminate].
    + rewrite (copy_grp fuel h l agg kids E) in H.
      change (fix go (ks : list (string * nat)) (h : heap) : hres (list (string * nat)) := _) with (copy_go fuel) in H.
      assert (Hgo : forall ks h h1 r1, hwf h -> copy_go fuel ks h = (h1, r1) ->
                hwf h1 /\ (forall cs, r1 = Ok cs -> dkeys cs = dkeys ks)).
      { clear -IH. induction ks as [|p ks IHks]; intros h h1 r1 HN H; cbn [copy_go] in H.
        - injection H as <- <-. split; [exact HN|]. intros cs Hcs. injection Hcs as <-. reflexivity.
        - destruct (copy fuel h (snd p)) as [h2 [c|e]] eqn:Ec; cbn [hbind] in H.
          + pose proof (IH _ _ _ _ HN Ec) as N2.
            change ((fix go (ks : list (string * nat)) (h : heap) {struct ks} : hres (list (string * nat)) := _) ks h2)
              with (copy_go fuel ks h2) in H.
            destruct (copy_go fuel ks h2) as [h3 [cs|e]] eqn:Eg; cbn [hbind] in H; injection H as <- <-;
              destruct (IHks _ _ _ N2 Eg) as (N3 & C3).
            * split; [exact N3|]. intros cs' Hcs. injection Hcs as <-. unfold dkeys in *. cbn [map fst].
              rewrite (C3 cs eq_refl). reflexivity.
            * split; [exact N3 | discriminate].
          + injection H as <- <-. split; [eapply IH; eauto | discriminate]. }
      destruct (copy_go fuel kids h) as [h1 [ks|e]] eqn:Eg; cbn [hbind alloc] in H; injection H as <- <-;
        destruct (Hgo _ _ _ _ HW Eg) as (N1 & C1).
      * apply Halloc; [exact N1|]. intros a k Hk. injection Hk as <- <-. rewrite (C1 ks eq_refl). eapply HW; exact E.
      * exact N1.
Qed.

Lemma copy_separate fuel h g m :
  nodangle h -> shows h g m -> depth m <= fuel ->
  exists h' c, copy fuel h g = (h', Ok c) /\ shows h' c m /\ shows h' g m /\ separate h' c g.
Proof.
  intros HN HS HD. destruct (copy_correct m fuel h g HS HD) as (h' & c & Hc & HG & Hge & HS').
  exists h', c. split; [exact Hc|]. split; [exact HS'|]. split; [eapply grows_shows; eauto|].
  destruct (copy_nodangle fuel h g h' (Ok c) HN Hc) as (N & L & B). split; [exact N|]. split; [auto|].
  split; [|eapply grows_disjoint; eauto].
  assert (g < length h) by (eapply shows_reach_lt; [exact HS | constructor]). lia.
Qed.

Lemma copy_drop_separate fuel key h g agg ms :
  nodangle h -> hwf h -> shows h g (MGrp agg ms) -> depth (MGrp agg ms) <= fuel ->
  exists h' c, recursive_drop_copy fuel key h g = (h', Ok c) /\
    shows h' c (recursive_drop key (MGrp agg ms)) /\ shows h' g (MGrp agg ms) /\ separate h' c g.
Proof.
  intros HN HW HS HD. destruct (copy_separate fuel h g _ HN HS HD) as (h1 & c & Hc & HSc & HSg & Sep).
  unfold recursive_drop_copy. rewrite Hc. cbn [hbind].
  pose proof (copy_hwf fuel h g h1 _ HW Hc) as HW1.
  pose proof (shows_hdepth h1 _ c fuel HSc HD) as HDc.
  inversion HSc as [|? ? kids ? Ec HK]; subst.
  destruct (drop_correct key fuel h1 c agg kids HW1 HDc Ec) as (h2 & Hd & Del & Cl & El).
  rewrite Hd. cbn [hbind]. exists h2, c. split; [reflexivity|].
  split; [eapply deleted_shows; eauto|].
  pose proof (separate_apply fuel h1 c g (HDrop [] key) Sep) as Sep2.
  pose proof (separate_apply_shows fuel h1 c g (HDrop [] key) _ Sep HSg) as HS2.
  cbn [apply walk] in Sep2, HS2. rewrite Hd in Sep2, HS2. cbn [fst] in *. split; assumption.
Qed.

Lemma drop_inplace_correct fuel key h g agg ms :
  hwf h -> shows h g (MGrp agg ms) -> depth (MGrp agg ms) <= fuel ->
  exists h', drop_inplace fuel key h g = (h', Ok tt) /\ shows h' g (recursive_drop key (MGrp agg ms)).
Proof.
  intros HW HS HD. pose proof (shows_hdepth h _ g fuel HS HD) as HDg.
  inversion HS as [|? ? kids ? E HK]; subst.
  destruct (drop_correct key fuel h g agg kids HW HDg E) as (h2 & Hd & Del & Cl & El).
  exists h2. split; [exact Hd|]. eapply deleted_shows; eauto.
Qed.
