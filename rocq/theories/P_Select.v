(** C51, C52, C54: color singlets, overlap test, jets. *)
From Verif Require Import Prelude Dict Keys MaskTypes SpecMask Mask MaskProofs SpecArray Arrays ArraysProofs SpecSelect SelectMisc HierEvent PartProofs.

(** ** Combinations *)
Lemma combinations_map {A B} (f : A -> B) : forall l k, combinations k (map f l) = map (map f) (combinations k l).
Proof.
  induction l as [|x r IH]; intros [|k]; cbn; try reflexivity. rewrite map_app, map_map, !IH, map_map. reflexivity.
Qed.

Lemma sorted_In_nil k ix : StronglySorted lt ix -> (forall i, In i ix -> In i []) -> length ix = S k -> False.
Proof. intros _ H L. destruct ix as [|i ix]; [discriminate|]. exact (H i (or_introl eq_refl)). Qed.

Lemma combinations_In : forall l k ix, StronglySorted lt l ->
  (In ix (combinations k l) <-> length ix = k /\ StronglySorted lt ix /\ forall i, In i ix -> In i l).
Proof.
  induction l as [|x r IH]; intros k ix HS.
  - destruct k; cbn.
    + split; [intros [<-|[]]; repeat split; [constructor|contradiction] | intros (H & _); left; destruct ix; [reflexivity|discriminate]].
    + split; [contradiction|]. intros (L & S & H). eapply sorted_In_nil; eauto.
  - inversion HS as [|? ? HS' HF]; subst. rewrite Forall_forall in HF. destruct k; cbn [combinations].
    + cbn. split; [intros [<-|[]]; repeat split; [constructor|contradiction] | intros (H & _); left; destruct ix; [reflexivity|discriminate]].
    + rewrite in_app_iff, in_map_iff, IH by exact HS'. split.
      * intros [(iy & <- & H)|(L & S & H)].
        -- apply IH in H as (L & S & H); [|exact HS']. cbn. split; [congruence|]. split; [constructor; [exact S|]; apply Forall_forall; intros y Hy; apply HF, H, Hy|].
           intros i [<-|Hi]; auto.
        -- split; [exact L|]. split; [exact S|]. intros i Hi. right. auto.
      * intros (L & S & H). destruct ix as [|i iy]; [discriminate|]. inversion S as [|? ? S' F]; subst. rewrite Forall_forall in F.
        destruct (H i (or_introl eq_refl)) as [<-|Hi].
        -- left. exists iy. split; [reflexivity|]. apply IH; [exact HS'|]. split; [cbn in L; lia|]. split; [exact S'|].
           intros j Hj. destruct (H j (or_intror Hj)) as [<-|Hr]; [specialize (F x Hj); lia | exact Hr].
        -- right. split; [exact L|]. split; [exact S|]. intros j [<-|Hj]; [exact Hi|]. destruct (H j (or_intror Hj)) as [<-|Hr]; [|exact Hr].
           specialize (F x Hj). specialize (HF i Hi). lia.
Qed.

Lemma SSorted_app {A} (R : A -> A -> Prop) l r : StronglySorted R l -> StronglySorted R r -> (forall a b, In a l -> In b r -> R a b) -> StronglySorted R (l ++ r).
Proof.
  induction 1 as [|x l HS IH HF]; intros HR H; [exact HR|]. cbn. constructor.
  - apply IH; [exact HR|]. intros; apply H; [right|]; auto.
  - apply Forall_app. split; [exact HF|]. apply Forall_forall. intros b Hb. apply H; [left; reflexivity | exact Hb].
Qed.
Lemma SSorted_map {A B} (f : A -> B) (R : A -> A -> Prop) (Q : B -> B -> Prop) l : (forall a b, R a b -> Q (f a) (f b)) -> StronglySorted R l -> StronglySorted Q (map f l).
Proof.
  intros HRQ. induction 1 as [|x l HS IH HF]; cbn; constructor; auto. rewrite Forall_forall in *. intros b Hb. apply in_map_iff in Hb as (a & <- & Ha). auto.
Qed.
Lemma SSorted_filter {A} (R : A -> A -> Prop) f l : StronglySorted R l -> StronglySorted R (filter f l).
Proof.
  induction 1 as [|x l HS IH HF]; cbn; [constructor|]. destruct (f x); [constructor|]; auto. rewrite Forall_forall in *. intros b Hb. apply filter_In in Hb. apply HF, Hb.
Qed.
Lemma SSorted_sub {A} (R Q : A -> A -> Prop) l : (forall a b, In a l -> In b l -> R a b -> Q a b) -> StronglySorted R l -> StronglySorted Q l.
Proof.
  intros H HS. induction HS as [|x l HS IH HF]; constructor.
  - apply IH. intros; apply H; auto; right; auto.
  - rewrite Forall_forall in *. intros b Hb. apply H; [left; reflexivity | right; exact Hb | auto].
Qed.

Lemma combinations_lex : forall l k, StronglySorted lt l -> StronglySorted lex (combinations k l).
Proof.
  induction l as [|x r IH]; intros k HS; destruct k; cbn; try (repeat constructor; fail). inversion HS as [|? ? HS' HF]; subst. rewrite Forall_forall in HF.
  apply SSorted_app; [|auto|].
  - eapply SSorted_map; [|apply IH; exact HS']. intros a b H. apply lex_there. exact H.
  - intros a b Ha Hb. apply in_map_iff in Ha as (a' & <- & Ha). apply combinations_In in Hb as (L & S & H); [|exact HS'].
    destruct b as [|y b]; [discriminate|]. apply lex_here. apply HF, H. left; reflexivity.
Qed.

Lemma seq_sorted n : forall m, StronglySorted lt (seq m n).
Proof. induction n as [|n IH]; intros m; cbn; constructor; auto. apply Forall_forall. intros x Hx. apply in_seq in Hx. lia. Qed.

Lemma set_eqb_spec a b : set_eqb a b = true <-> forall x, In x a <-> In x b.
Proof.
  unfold set_eqb. rewrite andb_true_iff, !forallb_forall.
  assert (E : forall l x, existsb (Z.eqb x) l = true <-> In x l).
  { intros l x. rewrite existsb_exists. split; [intros (y & H & E); apply Z.eqb_eq in E; subst; exact H | intros H; exists x; split; [exact H|apply Z.eqb_refl]]. }
  split.
  - intros (H1 & H2) x. split; intros H; [apply E, H1, H | apply E, H2, H].
  - intros H. split; intros x Hx; apply E, H, Hx.
Qed.

Lemma map_NoDup_in {A B} (f : A -> B) l : (forall x y, In x l -> In y l -> f x = f y -> x = y) -> NoDup l -> NoDup (map f l).
Proof.
  intros H HN. induction HN as [|x l Hx HN IH]; cbn; constructor.
  - intros Hin. apply in_map_iff in Hin as (y & E & Hy). apply Hx. rewrite <- (H y x); [exact Hy | right; exact Hy | left; reflexivity | exact E].
  - apply IH. intros; apply H; auto; right; auto.
Qed.

(** ** The colored leaves by position *)
Section Colors.
  Context (leaves : list (string * list bool)) (cs : list (Z * Z)) (L : length cs = length leaves).
  Definition isc (i : nat) : bool := negb (color_pair_eqb (0, 0)%Z (nth i cs (0, 0)%Z)).
  Definition nm (i : nat) : string := nth i (map fst leaves) EmptyString.
  Definition cidx : list nat := filter isc (seq 0 (length leaves)).

  Lemma colored_iff i : colored cs i <-> i < length leaves /\ isc i = true.
  Proof using L.
    unfold colored, isc. split.
    - intros (c & Hc & Hn). split; [rewrite <- L; apply nth_error_Some; congruence|]. rewrite (nth_error_nth _ _ _ Hc).
      unfold color_pair_eqb. destruct c as [a b]. cbn [fst snd]. destruct (Z.eqb_spec 0 a), (Z.eqb_spec 0 b); try reflexivity. subst. contradiction.
    - intros (Hi & H). rewrite <- L in Hi. destruct (nth_error_in_range cs i Hi) as (c & Hc). exists c. split; [exact Hc|]. rewrite (nth_error_nth _ _ _ Hc) in H.
      intros ->. discriminate.
  Qed.
  Lemma cidx_In i : In i cidx <-> colored cs i.
  Proof using L. unfold cidx. rewrite filter_In, in_seq, colored_iff. intuition lia. Qed.
  Lemma cidx_sorted : StronglySorted lt cidx.
  Proof using. apply SSorted_filter, seq_sorted. Qed.

  Lemma compress_filter {A B} (g : A -> bool) (f : A -> B) : forall l, compress (map g l) (map f l) = map f (filter g l).
  Proof using. induction l as [|x r IH]; cbn; [reflexivity|]. destruct (g x); cbn; rewrite IH; reflexivity. Qed.

  Lemma map_nth_seq {A} (l : list A) d : map (fun i => nth i l d) (seq 0 (length l)) = l.
  Proof using.
    apply nth_error_ext. intros i. rewrite nth_error_map'. destruct (Nat.lt_ge_cases i (length l)) as [H|H].
    - rewrite (nth_error_nth' (seq 0 (length l)) 0) by (rewrite seq_length; exact H). rewrite seq_nth by exact H. cbn. symmetry. apply nth_error_nth'. exact H.
    - rewrite (proj2 (nth_error_None (seq _ _) i)) by (rewrite seq_length; exact H). symmetry. apply nth_error_None. exact H.
  Qed.

  Lemma colored_keys : compress (map (fun c => negb (color_pair_eqb (0, 0)%Z c)) cs) (map fst leaves) = map nm cidx.
  Proof using L.
    rewrite <- (map_nth_seq cs (0, 0)%Z) at 1. rewrite map_map. rewrite <- (map_nth_seq (map fst leaves) EmptyString) at 1.
    rewrite L, map_length. apply compress_filter.
  Qed.
  Lemma colored_cols : compress (map (fun c => negb (color_pair_eqb (0, 0)%Z c)) cs) cs = map (fun i => nth i cs (0, 0)%Z) cidx.
  Proof using L.
    rewrite <- (map_nth_seq cs (0, 0)%Z) at 1 2. rewrite map_map. rewrite L. apply compress_filter.
  Qed.
  Lemma combine_map {A B C} (f : A -> B) (g : A -> C) l : combine (map f l) (map g l) = map (fun x => (f x, g x)) l.
  Proof using. induction l as [|x r IH]; cbn; [reflexivity|]. rewrite IH. reflexivity. Qed.

  Definition neut (ix : list nat) : bool := set_eqb (map (fun i => fst (nth i cs (0, 0)%Z)) ix) (map (fun i => snd (nth i cs (0, 0)%Z)) ix).
  Definition sing_idx : list (list nat) := filter neut (combinations 2 cidx ++ combinations 3 cidx).

  Lemma neut_iff ix : (forall i, In i ix -> colored cs i) -> (neut ix = true <-> neutral cs ix).
  Proof using L.
    intros H. unfold neut, neutral. rewrite set_eqb_spec.
    assert (E : forall (pr : Z * Z -> Z) x, In x (map (fun i => pr (nth i cs (0, 0)%Z)) ix) <-> exists i c, In i ix /\ nth_error cs i = Some c /\ pr c = x).
    { intros pr x. rewrite in_map_iff. split.
      - intros (i & E & Hi). destruct (H i Hi) as (c & Hc & _). exists i, c. rewrite (nth_error_nth _ _ _ Hc) in E. auto.
      - intros (i & c & Hi & Hc & E). exists i. rewrite (nth_error_nth _ _ _ Hc). auto. }
    split; intros G x; specialize (G x).
    - rewrite <- (E fst x), <- (E snd x). exact G.
    - rewrite (E fst x), (E snd x). exact G.
  Qed.

  Lemma sing_In ix : In ix sing_idx <-> combination cs ix /\ neutral cs ix.
  Proof using L.
    unfold sing_idx. rewrite filter_In, in_app_iff, !combinations_In by apply cidx_sorted. unfold combination.
    assert (E : (forall i, In i ix -> In i cidx) <-> (forall i, In i ix -> colored cs i)) by (split; intros H i Hi; apply cidx_In, H, Hi).
    rewrite E. split.
    - intros (H & N). assert (HC : forall i, In i ix -> colored cs i) by tauto. split; [tauto|]. apply neut_iff; auto.
    - intros ((HL & HS & HC) & N). split; [tauto|]. apply neut_iff; auto.
  Qed.

  Lemma sing_sorted : StronglySorted before sing_idx.
  Proof using L.
    unfold sing_idx. apply SSorted_filter. apply SSorted_app.
    - eapply SSorted_sub; [|apply combinations_lex, cidx_sorted]. intros a b Ha Hb H. right. split; [|exact H].
      apply combinations_In in Ha as (-> & _); [|apply cidx_sorted]. apply combinations_In in Hb as (-> & _); [reflexivity|apply cidx_sorted].
    - eapply SSorted_sub; [|apply combinations_lex, cidx_sorted]. intros a b Ha Hb H. right. split; [|exact H].
      apply combinations_In in Ha as (-> & _); [|apply cidx_sorted]. apply combinations_In in Hb as (-> & _); [reflexivity|apply cidx_sorted].
    - intros a b Ha Hb. left. apply combinations_In in Ha as (-> & _); [|apply cidx_sorted]. apply combinations_In in Hb as (-> & _); [lia|apply cidx_sorted].
  Qed.

  Lemma filter_map' {A B} (f : A -> B) (g : B -> bool) l : filter g (map f l) = map f (filter (fun x => g (f x)) l).
  Proof using. induction l as [|x r IH]; cbn; [reflexivity|]. destruct (g (f x)); cbn; rewrite IH; reflexivity. Qed.
End Colors.

Lemma sole_compress outgoing color d c : length d = length outgoing -> length color = length outgoing ->
  sole_parton outgoing color d c -> compress (map2 andb outgoing d) color = [c].
Proof.
  revert color d. induction outgoing as [|o os IH]; intros [|x color] [|y d] L1 L2 (p & Hp & Hd & Hc & Hu); try discriminate; [destruct p; discriminate|].
  cbn [map2]. destruct (andb o y) eqn:E.
  - apply andb_true_iff in E as [-> ->]. assert (p = 0) by (symmetry; apply Hu; reflexivity). subst p. cbn in Hc. injection Hc as ->. cbn [compress]. f_equal.
    assert (G : forall i, nth_error (map2 andb os d) i <> Some true).
    { intros i H. rewrite map2_nth in H. destruct (nth_error os i) as [[|]|] eqn:A; destruct (nth_error d i) as [[|]|] eqn:B; try discriminate. specialize (Hu (S i) A B). discriminate. }
    destruct (compress (map2 andb os d) color) as [|z r] eqn:Ez; [reflexivity|]. exfalso.
    assert (In z (compress (map2 andb os d) color)) by (rewrite Ez; left; reflexivity). apply compress_In in H as (i & H & _). exact (G i H).
  - cbn [compress]. destruct p as [|p]; [cbn in Hp, Hd; injection Hp as ->; injection Hd as ->; discriminate|]. apply IH; [cbn in L1; lia | cbn in L2; lia |].
    exists p. cbn in Hp, Hd, Hc. split; [exact Hp|]. split; [exact Hd|]. split; [exact Hc|]. intros q A B. specialize (Hu (S q) A B). lia.
Qed.

Lemma singlet_names_ok leaves outgoing color cs :
  length color = length outgoing -> Forall2 (fun p c => length (snd p) = length outgoing /\ sole_parton outgoing color (snd p) c) leaves cs ->
  singlet_names leaves outgoing color = Ok (map (nm leaves) (cidx leaves cs), map (map (nm leaves)) (sing_idx leaves cs)).
Proof.
  intros LC HF. assert (L : length cs = length leaves) by (symmetry; eapply Forall2_length'; eauto).
  unfold singlet_names.
  assert (G : exists ms, mapM (fun p => broadcast2 andb outgoing (snd p)) leaves = Ok ms /\ flat_map (fun m => compress m color) ms = cs).
  { clear L. induction HF as [|p c r rc (Lp & Hs) HF IH]; cbn [mapM]; [exists []; auto|]. destruct IH as (ms & E & F).
    unfold broadcast2 at 1. rewrite Lp, Nat.eqb_refl. cbn [bind]. rewrite E. cbn [bind]. eexists. split; [reflexivity|].
    cbn [flat_map]. rewrite F, (sole_compress _ _ _ _ Lp LC Hs). reflexivity. }
  destruct G as (ms & E & F). rewrite E. cbn [bind]. rewrite F. rewrite (colored_keys leaves cs L), (colored_cols leaves cs L), combine_map, !combinations_map.
  rewrite <- map_app, filter_map', map_map. unfold sing_idx, neut.
  f_equal. f_equal.
  assert (HE : forall (A : Type) (f g : A -> bool) l, (forall x, f x = g x) -> filter f l = filter g l) by (intros A f g l Hfg; apply filter_ext; exact Hfg).
  rewrite (HE _ _ (fun ix => set_eqb (map (fun i => fst (nth i cs (0, 0)%Z)) ix) (map (fun i => snd (nth i cs (0, 0)%Z)) ix))).
  - apply map_ext. intros ix. rewrite map_map. reflexivity.
  - intros ix. rewrite !map_map. reflexivity.
Qed.

Lemma outgoing_eq status p : Forall fits16 status ->
  (nth_error (map (fun z => Z.eqb 23 (wrap16 (Z.abs z))) status) p = Some true <-> exists s, nth_error status p = Some s /\ (s = 23 \/ s = -23)%Z).
Proof.
  intros HF. rewrite nth_error_map'. destruct (nth_error status p) as [s|] eqn:E; cbn.
  - assert (fits16 s). { rewrite Forall_forall in HF. apply HF. eapply nth_error_In; eauto. }
    assert (EQ : Z.eqb 23 (wrap16 (Z.abs s)) = true <-> (s = 23 \/ s = -23)%Z).
    { rewrite Z.eqb_eq. unfold fits16 in H. destruct (Z.eq_dec s (-32768)) as [->|Hn]; [vm_compute; split; [discriminate | intros [E1|E1]; discriminate]|].
      rewrite wrap16_id by (unfold fits16; lia). lia. }
    split; [intros H1; injection H1 as H1; exists s; split; [reflexivity|]; apply EQ; exact H1 | intros (s' & H1 & H2); injection H1 as <-; f_equal; apply EQ; exact H2].
  - split; [discriminate | intros (s & H & _); discriminate].
Qed.

Definition parton_colors (leaves : list (string * list bool)) (status : list Z) (color cs : list (Z * Z)) : Prop :=
  length color = length status /\
  exists outgoing, (length outgoing = length status /\ forall p, nth_error outgoing p = Some true <-> exists s, nth_error status p = Some s /\ (s = 23 \/ s = -23)%Z) /\
  Forall2 (fun p c => length (snd p) = length status /\ sole_parton outgoing color (snd p) c) leaves cs.

Lemma parton_colors_names leaves status color cs : Forall fits16 status -> parton_colors leaves status color cs ->
  singlet_names leaves (map (fun z => Z.eqb 23 (wrap16 (Z.abs z))) status) color = Ok (map (nm leaves) (cidx leaves cs), map (map (nm leaves)) (sing_idx leaves cs)).
Proof.
  intros HF (LC & out & (LO & HO) & F2). apply singlet_names_ok; [rewrite map_length; exact LC|]. rewrite map_length.
  assert (out = map (fun z => Z.eqb 23 (wrap16 (Z.abs z))) status) as <-.
  { apply nth_error_ext. intros i. pose proof (HO i) as A. rewrite <- (outgoing_eq status i HF) in A.
    destruct (nth_error out i) as [[|]|] eqn:E1; destruct (nth_error (map _ status) i) as [[|]|] eqn:E2; try reflexivity; try (destruct A as [A1 A2]; try discriminate (A1 eq_refl); try discriminate (A2 eq_refl)).
    - apply nth_error_None in E2. rewrite map_length, <- LO in E2. apply nth_error_None in E2. congruence.
    - apply nth_error_None in E1. rewrite LO, <- (map_length (fun z => Z.eqb 23 (wrap16 (Z.abs z))) status) in E1. apply nth_error_None in E1. congruence. }
  exact F2.
Qed.

(** C51: exactly the neutral pairs and triples of colored leaves, in combination order. *)
Theorem C51_color_singlets : forall order leaves status color cs,
  Forall fits16 status -> parton_colors leaves status color cs ->
  exists ixs, color_singlets order leaves status color false = Ok (map (map (fun i => nth i (map fst leaves) EmptyString)) ixs) /\
    StronglySorted before ixs /\
    forall ix, In ix ixs <-> combination cs ix /\ neutral cs ix.
Proof.
  intros order leaves status color cs HF HP. assert (L : length cs = length leaves) by (destruct HP as (_ & out & _ & F); symmetry; eapply Forall2_length'; eauto).
  exists (sing_idx leaves cs). unfold color_singlets. rewrite (parton_colors_names _ _ _ _ HF HP). cbn [bind snd fst]. split; [reflexivity|].
  split; [apply sing_sorted; exact L | intros ix; apply sing_In; exact L].
Qed.

(** C51, invert: exactly the colored leaves in no such combination, as 1-tuples. *)
Theorem C51_color_singlets_invert : forall order leaves status color cs,
  (forall l, Permutation (order l) l) -> NoDup (map fst leaves) ->
  Forall fits16 status -> parton_colors leaves status color cs ->
  exists out, color_singlets order leaves status color true = Ok out /\ NoDup out /\
    forall t, In t out <-> exists i k, nth_error (map fst leaves) i = Some k /\ t = [k] /\ colored cs i /\
                             ~ exists ix, In i ix /\ combination cs ix /\ neutral cs ix.
Proof.
  intros order leaves status color cs Hord HN HF HP. assert (L : length cs = length leaves) by (destruct HP as (_ & out & _ & F); symmetry; eapply Forall2_length'; eauto).
  unfold color_singlets. rewrite (parton_colors_names _ _ _ _ HF HP). cbn [bind snd fst]. eexists. split; [reflexivity|].
  set (keys := map (nm leaves) (cidx leaves cs)). set (sing := map (map (nm leaves)) (sing_idx leaves cs)).
  assert (EB : forall l k, existsb (String.eqb k) l = true <-> In k l).
  { intros l k. rewrite existsb_exists. split; [intros (y & H & E); apply String.eqb_eq in E; subst; exact H | intros H; exists k; split; [exact H|apply String.eqb_refl]]. }
  assert (Hnm : forall i j, i < length leaves -> j < length leaves -> nm leaves i = nm leaves j -> i = j).
  { intros i j Hi Hj E. apply (proj1 (NoDup_nth (map fst leaves) EmptyString) HN); rewrite ?map_length; assumption. }
  assert (HM : forall k, In k (concat sing) <-> exists i ix, k = nm leaves i /\ In i ix /\ combination cs ix /\ neutral cs ix).
  { intros k. unfold sing. rewrite in_concat. split.
    - intros (t & Ht & Hk). apply in_map_iff in Ht as (ix & <- & Hix). apply in_map_iff in Hk as (i & <- & Hi). apply (sing_In leaves cs L) in Hix. exists i, ix. tauto.
    - intros (i & ix & -> & Hi & HC). exists (map (nm leaves) ix). split; [apply in_map, (sing_In leaves cs L); exact HC | apply in_map; exact Hi]. }
  assert (HK : forall k, In k keys <-> exists i, k = nm leaves i /\ colored cs i).
  { intros k. unfold keys. rewrite in_map_iff. split; intros (i & A & B); exists i; split; auto; apply (cidx_In leaves cs L); exact B. }
  assert (HS : filter (fun k => negb (existsb (String.eqb k) keys)) (nodup String.string_dec (concat sing)) = []).
  { assert (forall k, In k (nodup String.string_dec (concat sing)) -> negb (existsb (String.eqb k) keys) = false).
    { intros k Hk. apply nodup_In, HM in Hk as (i & ix & -> & Hi & (_ & _ & HC) & _). apply negb_false_iff, EB, HK. exists i. auto. }
    induction (nodup String.string_dec (concat sing)) as [|k r IH]; [reflexivity|]. cbn. rewrite H by (left; reflexivity). apply IH. intros; apply H; right; auto. }
  rewrite HS, app_nil_r.
  assert (NK : NoDup keys).
  { unfold keys. apply map_NoDup_in.
    - intros i j Hi Hj E. apply (cidx_In leaves cs L), (colored_iff leaves cs L) in Hi, Hj. apply Hnm; tauto.
    - unfold cidx. apply NoDup_filter, seq_NoDup. }
  split.
  - apply map_NoDup_in; [intros a b _ _ E; congruence|]. eapply Permutation_NoDup; [symmetry; apply Hord|]. apply NoDup_filter, NK.
  - intros t. rewrite in_map_iff. split.
    + intros (k & <- & Hk). eapply Permutation_in in Hk; [|apply Hord]. apply filter_In in Hk as (Hk & Hm). apply HK in Hk as (i & -> & Hc). exists i, (nm leaves i).
      split; [unfold nm; apply nth_error_nth'; rewrite map_length; apply (colored_iff leaves cs L) in Hc; tauto|]. split; [reflexivity|]. split; [exact Hc|].
      intros (ix & Hi & HC). apply negb_true_iff in Hm. assert (existsb (String.eqb (nm leaves i)) (nodup String.string_dec (concat sing)) = true); [|congruence].
      apply EB, nodup_In, HM. exists i, ix. tauto.
    + intros (i & k & Hk & -> & Hc & Hno). exists k. split; [reflexivity|]. eapply Permutation_in; [symmetry; apply Hord|]. apply filter_In.
      assert (k = nm leaves i) as -> by (unfold nm; symmetry; apply nth_error_nth; exact Hk). split; [apply HK; eauto|]. apply negb_true_iff.
      destruct (existsb (String.eqb (nm leaves i)) (nodup String.string_dec (concat sing))) eqn:E; [|reflexivity]. exfalso. apply EB, nodup_In, HM in E as (j & ix & E & Hj & HC & Hn).
      apply Hno. exists ix. assert (i = j) as ->; [|tauto]. apply Hnm; [| |exact E]; [apply (colored_iff leaves cs L) in Hc; tauto|].
      destruct HC as (_ & _ & HC). specialize (HC j Hj). apply (colored_iff leaves cs L) in HC. tauto.
Qed.

(** t b W -> c s: the pair (c, s~) is neutral, b is not; e+ is colorless. *)
Example C51_demo :
  let leaves := [("b", [true; false; false; false]); ("c", [false; true; false; false]); ("s~", [false; false; true; false]); ("e+", [false; false; false; true])]%string in
  let status := [23; 23; 23; 23]%Z in
  let color := [(101, 0); (102, 0); (0, 102); (0, 0)]%Z in
  parton_colors leaves status color color /\ Forall fits16 status /\
  color_singlets (fun l => l) leaves status color false = Ok [["c"; "s~"]%string] /\
  color_singlets (fun l => l) leaves status color true = Ok [["b"]%string].
Proof.
  cbn zeta. split; [|split; [repeat constructor; unfold fits16; lia | split; vm_compute; reflexivity]]. split; [reflexivity|]. exists [true; true; true; true]. split; [split; [reflexivity|]|].
  - intros p. do 4 (destruct p as [|p]; [cbn; split; [eexists; split; [reflexivity|lia] | reflexivity]|]). split; [destruct p; discriminate | intros (s & H & _); destruct p; discriminate].
  - repeat constructor.
    + exists 0. repeat split. intros [|[|[|[|q]]]] A B; try discriminate; [reflexivity | destruct q; discriminate].
    + exists 1. repeat split. intros [|[|[|[|q]]]] A B; try discriminate; [reflexivity | destruct q; discriminate].
    + exists 2. repeat split. intros [|[|[|[|q]]]] A B; try discriminate; [reflexivity | destruct q; discriminate].
    + exists 3. repeat split. intros [|[|[|[|q]]]] A B; try discriminate; [reflexivity | destruct q; discriminate].
Qed.

(** Outside the hypothesis: leaf b holds two outgoing partons, which shifts the colors against the
    names, so the neutral pair (b, c) is reported as (c, s~). *)
Example C51_several_partons :
  color_singlets (fun l => l) [("b", [true; true; false; false]); ("c", [false; false; true; false]); ("s~", [false; false; false; true])]%string
    [23; 23; 23; 23]%Z [(0, 0); (101, 0); (0, 101); (0, 0)]%Z false = Ok [["c"; "s~"]%string].
Proof. vm_compute. reflexivity. Qed.

(** ** any_overlap *)
(** C52: it raises AttributeError for every group, so it never answers. *)
Theorem C52_any_overlap_refuted : forall agg kids, any_overlap agg kids = Err AttributeError.
Proof. intros. reflexivity. Qed.

Lemma combinations2_In {A} (l : list A) c : In c (combinations 2 l) <-> exists i j a b, i < j /\ nth_error l i = Some a /\ nth_error l j = Some b /\ c = [a; b].
Proof.
  destruct l as [|x0 r0].
  - cbn. split; [contradiction|]. intros (i & j & a & b & _ & H & _). destruct i; discriminate.
  - set (l := x0 :: r0). rewrite <- (map_nth_seq l x0) at 1. rewrite combinations_map, in_map_iff. split.
    + intros (ix & <- & H). apply combinations_In in H as (L & S & H); [|apply seq_sorted]. destruct ix as [|i [|j [|]]]; try discriminate.
      assert (Hi : i < length l) by (specialize (H i (or_introl eq_refl)); apply in_seq in H; lia).
      assert (Hj : j < length l) by (specialize (H j (or_intror (or_introl eq_refl))); apply in_seq in H; lia).
      exists i, j, (nth i l x0), (nth j l x0). split; [inversion S as [|? ? _ F]; inversion F; assumption|].
      split; [apply nth_error_nth'; exact Hi|]. split; [apply nth_error_nth'; exact Hj | reflexivity].
    + intros (i & j & a & b & Hij & Ha & Hb & ->). exists [i; j]. cbn [map]. rewrite (nth_error_nth l i x0 Ha), (nth_error_nth l j x0 Hb). split; [reflexivity|].
      apply combinations_In; [apply seq_sorted|]. split; [reflexivity|]. split; [repeat constructor; lia|].
      assert (i < length l) by (apply nth_error_Some; congruence). assert (j < length l) by (apply nth_error_Some; congruence).
      intros k [<-|[<-|[]]]; apply in_seq; lia.
Qed.

(** With fewer than two masks there is no pair to reduce over and the call raises. *)
Theorem C52_too_few_partial : forall ms, length ms < 2 -> overlap_pairs ms = Err TypeError.
Proof. intros [|a [|b ms]] H; try reflexivity. cbn in H. lia. Qed.
Print Assumptions C52_too_few_partial.
(** The part after the failing attribute lookup is right: reading the masks from an existing
    attribute instead would give the documented answer for two or more masks. *)
Theorem C52_overlap_pairs_partial : forall n ms, 2 <= length ms -> Forall (fun m => length m = n) ms ->
  exists b, overlap_pairs ms = Ok b /\ (b = true <-> overlapping ms).
Proof.
  intros n ms HL HF. rewrite Forall_forall in HF. unfold overlap_pairs.
  destruct (combinations 2 ms) as [|c0 cr] eqn:EC.
  { exfalso. assert (H : In [nth 0 ms []; nth 1 ms []] (combinations 2 ms)); [|rewrite EC in H; contradiction].
    apply combinations2_In. exists 0, 1, (nth 0 ms []), (nth 1 ms []). split; [lia|]. split; [apply nth_error_nth'; lia|]. split; [apply nth_error_nth'; lia | reflexivity]. }
  rewrite <- EC. clear EC c0 cr.
  assert (G : exists rows, mapM (fun c => match c with [a; b] => broadcast2 andb a b | _ => Err ValueError end) (combinations 2 ms) = Ok rows /\
     forall r, In r rows <-> exists a b, In [a; b] (combinations 2 ms) /\ r = map2 andb a b).
  { assert (HC : forall c, In c (combinations 2 ms) -> exists a b, c = [a; b] /\ length a = n /\ length b = n).
    { intros c H. apply combinations2_In in H as (i & j & a & b & _ & Ha & Hb & ->). exists a, b. repeat split; apply HF; eapply nth_error_In; eauto. }
    induction (combinations 2 ms) as [|c cr IH]; cbn [mapM].
    - exists []. split; [reflexivity|]. intros r. split; [contradiction | intros (a & b & [] & _)].
    - destruct IH as (rows & E & HR). { intros c' Hc'. apply HC. right; exact Hc'. }
      destruct (HC c (or_introl eq_refl)) as (a & b & -> & La & Lb). unfold broadcast2 at 1. rewrite La, Lb, Nat.eqb_refl. cbn [bind]. rewrite E. cbn [bind].
      eexists. split; [reflexivity|]. intros r. cbn [In]. rewrite HR. split.
      + intros [<-|(a' & b' & H & ->)]; [exists a, b; auto | exists a', b'; auto].
      + intros (a' & b' & [H|H] & ->); [injection H as <- <-; left; reflexivity | right; eauto]. }
  destruct G as (rows & E & HR). rewrite E. cbn [bind]. eexists. split; [reflexivity|]. rewrite existsb_exists. split.
  - intros (r & Hr & Hb). apply HR in Hr as (a & b & Hab & ->). apply any_true in Hb as (p & Hp). apply combinations2_In in Hab as (i & j & a' & b' & Hij & Ha & Hb & E'). injection E' as <- <-.
    rewrite map2_nth in Hp. exists i, j, a, b, p. destruct (nth_error a p) as [[|]|]; destruct (nth_error b p) as [[|]|]; try discriminate. auto.
  - intros (i & j & a & b & p & Hij & Ha & Hb & H1 & H2). exists (map2 andb a b). split; [apply HR; exists a, b; split; [apply combinations2_In; exists i, j, a, b; auto | reflexivity]|].
    apply any_true. exists p. rewrite map2_nth, H1, H2. reflexivity.
Qed.

Example C52_demo : overlap_pairs [[true; false]; [false; true]; [false; true]] = Ok true /\ overlap_pairs [[true; false]; [false; true]] = Ok false.
Proof. split; reflexivity. Qed.

(** ** fastjet_clusters *)
Lemma constituents_ok n ix : (forall i, In i ix -> i < n) ->
  exists m, constituents n ix = Ok m /\ length m = n /\ forall i, nth_error m i = Some true <-> In i ix.
Proof.
  intros H. unfold constituents.
  assert (G : forall m0, length m0 = n -> exists m, foldM (fun m i => if i <? n then Ok (set_nth m i true) else Err IndexError) ix m0 = Ok m /\ length m = n /\
     forall i, nth_error m i = Some true <-> In i ix \/ nth_error m0 i = Some true).
  { induction ix as [|x r IH]; intros m0 L0; cbn [foldM].
    - exists m0. split; [reflexivity|]. split; [exact L0|]. intros i. cbn. tauto.
    - assert (x < n) by (apply H; left; reflexivity). rewrite (proj2 (Nat.ltb_lt x n)) by assumption. cbn [bind].
      destruct (IH (fun i Hi => H i (or_intror Hi)) (set_nth m0 x true)) as (m & E & L & HM); [rewrite set_nth_length; exact L0|].
      exists m. split; [exact E|]. split; [exact L|]. intros i. rewrite HM, set_nth_nth. cbn [In].
      destruct (Nat.eqb_spec x i) as [<-|Hne].
      + assert (nth_error m0 x <> None) by (apply nth_error_Some; lia). destruct (nth_error m0 x); [|contradiction]. tauto.
      + intuition congruence. }
  destruct (G (repeat false n) (repeat_length _ _)) as (m & E & L & HM). exists m. split; [exact E|]. split; [exact L|].
  intros i. rewrite HM. split; [intros [A|A]; [exact A|] | auto]. exfalso. apply nth_error_In, repeat_spec in A. discriminate.
Qed.

Section JetThms.
  Context {T J : Type} (ltb : T -> T -> bool) (zero : T) (pt abs_eta : J -> T) (parts : J -> list nat).
  (** Arguments the documentation calls valid. *)
  Definition valid_args (radius : T) (pt_cut eta_cut : option T) (top_k : topk) : Prop :=
    ltb radius zero = false /\ (forall c, pt_cut = Some c -> ltb c zero = false) /\ (forall c, eta_cut = Some c -> ltb c zero = false) /\
    (top_k = TkNone \/ exists k, top_k = TkInt k /\ (1 <= k)%Z).
  Definition limit (top_k : topk) (l : list J) : list J :=
    match top_k with TkInt k => firstn (Z.to_nat k) l | _ => l end.

  Lemma mapM_get_perm (jets : list J) idx : Permutation idx (seq 0 (length jets)) ->
    exists sel, mapM (get jets) idx = Ok sel /\ Permutation sel jets /\ Forall2 (fun i j => nth_error jets i = Some j) idx sel.
  Proof.
    intros HP.
    assert (G : exists sel, mapM (get jets) idx = Ok sel).
    { destruct (mapM_get_ok jets idx) as (r & Er & _); [|eauto]. intros p Hp. eapply Permutation_in in Hp; [|exact HP]. apply in_seq in Hp. lia. }
    destruct G as (sel & E). exists sel. split; [exact E|].
    assert (F : Forall2 (fun i j => nth_error jets i = Some j) idx sel).
    { apply mapM_ok in E. eapply Forall2_impl; [|exact E]. intros i j H. apply get_ok. exact H. }
    split; [|exact F]. destruct jets as [|j0 jr] eqn:EJ.
    - cbn in HP. apply Permutation_sym, Permutation_nil in HP. subst. inversion F. constructor.
    - rewrite <- EJ in *. assert (sel = map (fun i => nth i jets j0) idx) as ->.
      { clear - F. induction F as [|i j r rs H F IH]; cbn; [reflexivity|]. rewrite (nth_error_nth _ _ _ H), IH. reflexivity. }
      transitivity (map (fun i => nth i jets j0) (seq 0 (length jets))); [apply Permutation_map; exact HP | rewrite map_nth_seq; reflexivity].
  Qed.

  Lemma SSorted_rev {A} (R : A -> A -> Prop) l : StronglySorted R l -> StronglySorted (fun a b => R b a) (rev l).
  Proof.
    induction 1 as [|x l HS IH HF]; cbn; [constructor|]. apply SSorted_app; [exact IH | repeat constructor|].
    intros a b Ha [<-|[]]. rewrite Forall_forall in HF. apply HF, in_rev. exact Ha.
  Qed.

  (** C54: one mask per retained jet, exactly its constituents; the retained jets are the first
      top_k of all jets within eta_cut, ordered by non-increasing pt. *)
  Theorem C54_fastjet_clusters : forall argsort n jets radius pt_cut eta_cut top_k,
    argsorts ltb argsort -> valid_args radius pt_cut eta_cut top_k ->
    (forall j i, In j jets -> In i (parts j) -> i < n) ->
    exists sel masks,
      fastjet_clusters ltb zero pt abs_eta parts argsort n jets radius pt_cut eta_cut top_k = Ok masks /\
      Permutation sel (filter (fun j => match eta_cut with Some c => ltb (abs_eta j) c | None => true end) jets) /\
      StronglySorted (fun a b => ltb (pt a) (pt b) = false) sel /\
      Forall2 (fun j m => length m = n /\ forall i, nth_error m i = Some true <-> In i (parts j)) (limit top_k sel) masks.
  Proof.
    intros argsort n jets radius pt_cut eta_cut top_k HA (HR & HPT & HE & HK) Hparts.
    destruct (HA (map pt jets)) as (HP & HS). rewrite map_length in HP.
    destruct (mapM_get_perm jets (rev (argsort (map pt jets)))) as (all & Eall & Pall & Fall).
    { etransitivity; [symmetry; apply Permutation_rev | exact HP]. }
    assert (Sall : StronglySorted (fun a b => ltb (pt a) (pt b) = false) all).
    { apply SSorted_rev in HS. clear - HS Fall. induction Fall as [|i j r rs Hi F IH]; constructor; inversion HS as [|? ? HS' HF]; subst.
      - apply IH. exact HS'.
      - apply Forall_forall. intros b Hb. apply In_nth_error in Hb as (k & Hk). destruct (f2_nth _ _ _ k F) as (_ & F2). destruct (F2 b Hk) as (q & Hq & Hqb).
        rewrite Forall_forall in HF. apply (HF q); [eapply nth_error_In; exact Hq | |]; rewrite nth_error_map', ?Hi, ?Hqb; reflexivity. }
    set (keep := fun j => match eta_cut with Some c => ltb (abs_eta j) c | None => true end).
    exists (filter keep all).
    assert (Pf : Permutation (filter keep all) (filter keep jets)).
    { clear - Pall. induction Pall as [|x a b P IH|x y a|a b c P1 IH1 P2 IH2]; cbn; auto.
      - destruct (keep x); auto.
      - destruct (keep x), (keep y); auto. apply perm_swap.
      - etransitivity; eauto. }
    assert (GM : exists masks, mapM (fun j => constituents n (parts j)) (limit top_k (filter keep all)) = Ok masks /\
       Forall2 (fun j m => length m = n /\ forall i, nth_error m i = Some true <-> In i (parts j)) (limit top_k (filter keep all)) masks).
    { assert (HJ : forall j, In j (limit top_k (filter keep all)) -> In j jets).
      { intros j Hj. assert (In j (filter keep all)).
        { destruct top_k; cbn in Hj; auto. rewrite <- (firstn_skipn (Z.to_nat k) (filter keep all)). apply in_or_app. left; exact Hj. }
        apply filter_In in H as (H & _). eapply Permutation_in; eauto. }
      induction (limit top_k (filter keep all)) as [|j r IH]; cbn [mapM]; [exists []; split; constructor|].
      destruct IH as (ms & E & F). { intros; apply HJ; right; auto. }
      destruct (constituents_ok n (parts j)) as (m & Em & Lm & Hm). { intros i Hi. apply (Hparts j i); auto. apply HJ; left; reflexivity. }
      rewrite Em. cbn [bind]. rewrite E. cbn [bind]. eexists. split; [reflexivity|]. constructor; auto. }
    destruct GM as (masks & EM & FM). exists masks. split; [|split; [exact Pf | split; [apply SSorted_filter; exact Sall | exact FM]]].
    unfold fastjet_clusters.
    assert (E1 : (match pt_cut with None => Ok tt | Some c => if ltb c zero then Err ValueError else Ok tt end) = Ok tt).
    { destruct pt_cut as [c|]; [rewrite (HPT c eq_refl)|]; reflexivity. }
    rewrite E1. cbn [bind]. rewrite HR. cbn [bind].
    assert (E2 : (match top_k with TkNone => Ok tt | TkInt k => if (k <? 1)%Z then Err ValueError else Ok tt | TkOther _ => Err ValueError end) = Ok tt).
    { destruct HK as [->|(k & -> & Hk)]; [reflexivity|]. rewrite (proj2 (Z.ltb_ge k 1)) by lia. reflexivity. }
    rewrite E2. cbn [bind]. rewrite Eall. cbn [bind].
    assert (E3 : (match eta_cut with None => Ok all | Some c => if ltb c zero then Err ValueError else getkey all (KMask (map (fun j => ltb (abs_eta j) c) all)) end) = Ok (filter keep all)).
    { unfold keep. destruct eta_cut as [c|].
      - rewrite (HE c eq_refl). cbn [bind]. rewrite getkey_mask by apply map_length. f_equal. clear. induction all as [|x r IH]; cbn; [reflexivity|]. destruct (ltb (abs_eta x) c); rewrite IH; reflexivity.
      - f_equal. clear. induction all as [|x r IH]; cbn; congruence. }
    rewrite E3. cbn [bind]. exact EM.
  Qed.

  (** Invalid arguments raise ValueError. *)
  Theorem C54_invalid_args : forall argsort n jets radius pt_cut eta_cut top_k,
    argsorts ltb argsort -> ~ valid_args radius pt_cut eta_cut top_k ->
    fastjet_clusters ltb zero pt abs_eta parts argsort n jets radius pt_cut eta_cut top_k = Err ValueError.
  Proof.
    intros argsort n jets radius pt_cut eta_cut top_k HA HN. unfold fastjet_clusters.
    destruct (HA (map pt jets)) as (HP & _). rewrite map_length in HP.
    destruct (mapM_get_perm jets (rev (argsort (map pt jets)))) as (all & Eall & _). { etransitivity; [symmetry; apply Permutation_rev | exact HP]. }
    destruct (ltb radius zero) eqn:HR; [destruct pt_cut as [c|]; [destruct (ltb c zero)|]; reflexivity|].
    assert (HPT : (exists c, pt_cut = Some c /\ ltb c zero = true) \/ (forall c, pt_cut = Some c -> ltb c zero = false)).
    { destruct pt_cut as [c|]; [destruct (ltb c zero) eqn:E; [left; eauto | right; intros c' H; congruence] | right; discriminate]. }
    destruct HPT as [(c & -> & E)|HPT]; [rewrite E; reflexivity|].
    assert (E1 : (match pt_cut with None => Ok tt | Some c => if ltb c zero then Err ValueError else Ok tt end) = Ok tt) by (destruct pt_cut as [c|]; [rewrite (HPT c eq_refl)|]; reflexivity).
    rewrite E1. cbn [bind].
    destruct top_k as [|k|b]; [| |reflexivity].
    2: destruct (Z.ltb_spec k 1); [reflexivity|].
    all: cbn [bind]; rewrite Eall; cbn [bind]; destruct eta_cut as [c|]; [destruct (ltb c zero) eqn:E; [reflexivity|]|]; exfalso; apply HN; repeat split; auto; try discriminate; try (intros c' H'; congruence); eauto.
  Qed.
End JetThms.

(** Three jets (pt, |eta|, constituents) with cuts: the second is out of range, order by pt. *)
Example C54_demo :
  fastjet_clusters Z.ltb 0%Z (fun j : Z * Z * list nat => fst (fst j)) (fun j => snd (fst j)) snd (fun _ => [0; 2; 1]) 5
    [(10%Z, 1%Z, [0; 3]); (50%Z, 7%Z, [1]); (30%Z, 2%Z, [2; 4])] 1%Z (Some 0%Z) (Some 3%Z) (TkInt 5) =
  Ok [[false; false; true; false; true]; [true; false; false; true; false]].
Proof. vm_compute. reflexivity. Qed.

Print Assumptions C51_color_singlets.
Print Assumptions C51_color_singlets_invert.
Print Assumptions C52_any_overlap_refuted.
Print Assumptions C52_overlap_pairs_partial.
Print Assumptions C54_fastjet_clusters.
Print Assumptions C54_invalid_args.
