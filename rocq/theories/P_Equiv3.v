(** C209, C210: the order of the particle records carries no meaning for the hard partons' descendants and the nesting of the hierarchy. *)
From Coq Require Import Classical Permutation.
From Verif Require Import Prelude Dict Keys MaskTypes SpecMask Mask MaskProofs SpecAdj SpecArray Arrays ArraysProofs Adjacency Descend DescendProofs SpecHard Hard HardProofs P_Hard Hierarchy SpecHier HierProofs TreeProofs HierEvent HierMain HierOrder P_Hier P_Equiv.
From Verif Require Import SpecReorder P_Equiv2.

Section Hard.
  Variables (n : nat) (ps : list nat) (ev ev' : event).
  Hypotheses (HP : Permutation ps (seq 0 n)) (HO : event_ok n ev) (HR : reordered_event ps ev ev').

  Lemma ev_ok' : event_ok n ev'.
  Proof using HP HO HR.
    destruct HO as (L1 & L2 & L3 & L4 & S & Z). destruct HR as (R1 & R2 & R3 & R4).
    split; [apply (re_len n ps HP _ _ R1)|]. split; [apply (re_len n ps HP _ _ R2)|]. split; [apply (re_len n ps HP _ _ R3)|]. split; [apply (re_len n ps HP _ _ R4)|].
    split; apply Forall_forall; intros z Hz; rewrite Forall_forall in S, Z; [apply S; apply (reorder_In ps (e_status ev) (e_status ev')) | apply Z; apply (reorder_In ps (e_pdg ev) (e_pdg ev'))]; try assumption; [rewrite L3|rewrite L2]; exact HP.
  Qed.
  Lemma re_nth {A} (l l' : list A) d j i : reorders ps l l' -> nth_error ps j = Some i -> nth j l' d = nth i l d.
  Proof using. intros R E. pose proof (re_eq ps l l' j i R E) as Q. destruct (nth_error l i) as [x|] eqn:X; [rewrite (nth_error_nth _ _ d Q), (nth_error_nth _ _ d X); reflexivity|]. apply nth_error_None in Q, X. rewrite !nth_overflow by assumption. reflexivity. Qed.
  Lemma hard_in p : In p (hard_rows ev) <-> p < n /\ hard_status (nth p (e_status ev) 0%Z) = true.
  Proof using HO. destruct HO as (_ & _ & L3 & _). unfold hard_rows. rewrite filter_In, in_seq, L3. split; intros (A & B); split; auto; lia. Qed.
  Lemma re_hard j i : nth_error ps j = Some i -> (In i (hard_rows ev) <-> In j (hard_rows ev')).
  Proof using HP HO HR.
    intros E. rewrite hard_in. destruct ev_ok' as (_ & _ & L3' & _). destruct HR as (_ & _ & R3 & _). unfold hard_rows. rewrite filter_In, in_seq, L3', (re_nth _ _ 0%Z j i R3 E).
    pose proof (ps_lt n ps HP j i E). assert (j < n) by (rewrite <- (lenps n ps HP); apply nth_error_Some; congruence). split; intros (A & B); (split; [lia|exact B]).
  Qed.
  Lemma rows_perm : Permutation (map (fun j => nth j ps 0) (hard_rows ev')) (hard_rows ev).
  Proof using HP HO HR.
    assert (J : forall j, In j (hard_rows ev') -> exists i, nth_error ps j = Some i).
    { intros j Hj. apply (ps_of n ps HP). destruct ev_ok' as (_ & _ & L3' & _). unfold hard_rows in Hj. rewrite filter_In, in_seq, L3' in Hj. lia. }
    apply NoDup_Permutation.
    - assert (ND : NoDup (hard_rows ev')) by (apply NoDup_filter, seq_NoDup). clear - J ND HP. induction ND as [|x l Hx ND IH]; [constructor|]. cbn. constructor; [|apply IH; intros; apply J; right; assumption].
      intros H. apply in_map_iff in H as (y & E & Hy). destruct (J x (or_introl eq_refl)) as (a & Ea). destruct (J y (or_intror Hy)) as (b & Eb).
      rewrite (nth_error_nth _ _ 0 Ea), (nth_error_nth _ _ 0 Eb) in E. subst b. pose proof (ps_inj n ps HP _ _ _ Ea Eb). subst y. contradiction.
    - apply NoDup_filter, seq_NoDup.
    - intros p. rewrite in_map_iff. split.
      + intros (j & E & Hj). destruct (J j Hj) as (i & Ei). rewrite (nth_error_nth _ _ 0 Ei) in E. subst i. apply (re_hard j p Ei). exact Hj.
      + intros H. destruct (ps_has n ps HP p) as (j & Ej); [apply hard_in in H; tauto|]. exists j. split; [apply (nth_error_nth _ _ 0 Ej) | apply (re_hard j p Ej); exact H].
  Qed.
  Lemma names_perm name : Permutation (row_names name ev') (row_names name ev).
  Proof using HP HO HR.
    unfold row_names. rewrite <- (Permutation_map (fun i => name (nth i (e_pdg ev) 0%Z)) rows_perm), map_map. apply Permutation_refl'. apply map_ext_in. intros j Hj.
    destruct (ps_of n ps HP j) as (i & Ei). { destruct ev_ok' as (_ & _ & L3' & _). unfold hard_rows in Hj. rewrite filter_In, in_seq, L3' in Hj. lia. }
    rewrite (nth_error_nth _ _ 0 Ei). f_equal. apply re_nth; [apply HR|exact Ei].
  Qed.
  Lemma re_descends p p' i i' : nth_error ps p' = Some p -> nth_error ps i' = Some i -> (descends (e_edges ev) p i <-> descends (e_edges ev') p' i').
  Proof using HP HO HR.
    intros Ep Ei. destruct HO as (L1 & _). destruct HR as (R1 & _). assert (HPe : Permutation ps (seq 0 (length (e_edges ev)))) by (rewrite L1; exact HP). unfold descends.
    rewrite (re_eq ps _ _ _ _ R1 Ep), (re_eq ps _ _ _ _ R1 Ei). split; intros (a & b & c & d & A & B & C); exists a, b, c, d; (split; [exact A|]); (split; [exact B|]);
      [rewrite (re_src ps _ _ HPe R1), (re_reach ps _ _ HPe R1) | rewrite <- (re_src ps _ _ HPe R1), <- (re_reach ps _ _ HPe R1)]; exact C.
  Qed.
  (** The i-th hard parton of the event is the i'-th of the reordered one. *)
  Definition same_parton (i i' : nat) : Prop := exists p p', nth_error (hard_rows ev) i = Some p /\ nth_error (hard_rows ev') i' = Some p' /\ nth_error ps p' = Some p.
  Lemma same_ex i : i < length (hard_rows ev) -> exists i', same_parton i i'.
  Proof using HP HO HR.
    intros H. destruct (nth_error (hard_rows ev) i) as [p|] eqn:E; [|apply nth_error_None in E; lia]. pose proof (nth_error_In _ _ E) as I.
    destruct (ps_has n ps HP p) as (p' & E'); [apply hard_in in I; tauto|]. apply (re_hard p' p E') in I. apply In_nth_error in I as (i' & Ei'). exists i', p, p'. auto.
  Qed.
  Lemma same_ex' i' : i' < length (hard_rows ev') -> exists i, same_parton i i'.
  Proof using HP HO HR.
    intros H. destruct (nth_error (hard_rows ev') i') as [p'|] eqn:E; [|apply nth_error_None in E; lia]. pose proof (nth_error_In _ _ E) as I.
    destruct (ps_of n ps HP p') as (p & E'). { destruct ev_ok' as (_ & _ & L3' & _). unfold hard_rows in I. rewrite filter_In, in_seq, L3' in I. lia. }
    apply (re_hard p' p E') in I. apply In_nth_error in I as (i & Ei). exists i, p, p'. auto.
  Qed.
  Lemma rows_inj (e : event) a b p : nth_error (hard_rows e) a = Some p -> nth_error (hard_rows e) b = Some p -> a = b.
  Proof using. intros A B. assert (ND : NoDup (hard_rows e)) by (apply NoDup_filter, seq_NoDup). apply (proj1 (NoDup_nth_error _) ND); [apply nth_error_Some; congruence|congruence]. Qed.
  Lemma same_fun i a b : same_parton i a -> same_parton i b -> a = b.
  Proof using HP. intros (p & p' & A & B & C) (q & q' & A' & B' & C'). assert (p = q) by congruence. subst q. pose proof (ps_inj n ps HP _ _ _ C C'). subst q'. eapply rows_inj; eassumption. Qed.
  Lemma same_inj a b i : same_parton a i -> same_parton b i -> a = b.
  Proof using. intros (p & p' & A & B & C) (q & q' & A' & B' & C'). assert (p' = q') by congruence. subst q'. assert (p = q) by congruence. subst q. eapply rows_inj; eassumption. Qed.
  Lemma same_anc i i' j j' : same_parton i i' -> same_parton j j' -> (anc_ev ev i j <-> anc_ev ev' i' j').
  Proof using HP HO HR.
    intros Si Sj. assert (NE : i <> j <-> i' <> j'). { split; intros N E; apply N; subst; [eapply same_inj|eapply same_fun]; eassumption. }
    destruct Si as (p & p' & A & B & C), Sj as (q & q' & A' & B' & C'). unfold anc_ev. rewrite NE. apply and_iff_compat_l.
    split; intros (x & y & X & Y & DD); [exists p', q' | exists p, q]; (split; [assumption|]); (split; [assumption|]); apply (re_descends p p' q q' C C'); congruence.
  Qed.
End Hard.

(** C209: the descendants of a named hard parton, over the reordered records. *)
Theorem C209_hard_descendants : forall name n ps ev ev' ss strict, event_ok n ev -> (forall z, has_colon (name z) = false) -> Permutation ps (seq 0 n) -> reordered_event ps ev ev' -> distinct_names name ev ->
  exists kids kids', hard_descendants name ev None ss strict = Ok (MGrp "or" kids) /\ hard_descendants name ev' None ss strict = Ok (MGrp "or" kids') /\
    Permutation (dkeys kids') (dkeys kids) /\ NoDup (dkeys kids) /\
    forall k m, In (k, m) kids -> exists d d', m = MArr d /\ In (k, MArr d') kids' /\ reorders ps d d'.
Proof.
  intros name n ps ev ev' ss strict HO HN HP HR ND. pose proof (ev_ok' n ps ev ev' HP HO HR) as HO'.
  destruct (C40_hard_descendants name ev n ss strict HO HN) as (kids & E & (LK & NK & K1) & K2). destruct (C40_hard_descendants name ev' n ss strict HO' HN) as (kids' & E' & (LK' & NK' & K1') & K2').
  pose proof (names_perm n ps ev ev' HP HO HR name) as PN. assert (ND' : NoDup (row_names name ev')) by (eapply Permutation_NoDup; [apply Permutation_sym, PN|exact ND]).
  assert (KEY : forall e ks, NoDup (row_names name e) -> named (row_names name e) ks -> ks = row_names name e).
  { clear. intros e ks ND (L & _ & H). apply nth_error_ext. intros j. destruct (nth_error (row_names name e) j) as [nm|] eqn:Ej.
    - rewrite (H j nm Ej). assert (C : count_occ string_dec (row_names name e) nm = 1) by (apply (proj1 (NoDup_count_occ' string_dec _) ND); eapply nth_error_In, Ej). rewrite C. reflexivity.
    - apply nth_error_None. apply nth_error_None in Ej. lia. }
  assert (EK : dkeys kids = row_names name ev) by (apply KEY; [exact ND | split; [exact LK|split; [exact NK|exact K1]]]).
  assert (EK' : dkeys kids' = row_names name ev') by (apply KEY; [exact ND' | split; [exact LK'|split; [exact NK'|exact K1']]]).
  exists kids, kids'. split; [exact E|]. split; [exact E'|]. split; [rewrite EK, EK'; exact PN|]. split; [rewrite EK; exact ND|].
  intros k m Hin. apply In_nth_error in Hin as (j & Hj).
  assert (Lj : j < length (hard_rows ev)). { assert (j < length (dkeys kids)) by (unfold dkeys; rewrite map_length; apply nth_error_Some; congruence). rewrite EK in H. unfold row_names in H. rewrite map_length in H. exact H. }
  destruct (same_ex n ps ev ev' HP HO HR j Lj) as (j' & p & p' & A & B & C).
  destruct (K2 j p A) as (k0 & d & Hd & Ld & Td). rewrite Hj in Hd. injection Hd as <- ->. destruct (K2' j' p' B) as (k' & d' & Hd' & Ld' & Td').
  assert (k' = k).
  { assert (X : nth_error (dkeys kids) j = Some k) by (unfold dkeys; rewrite nth_error_map', Hj; reflexivity). assert (Y : nth_error (dkeys kids') j' = Some k') by (unfold dkeys; rewrite nth_error_map', Hd'; reflexivity).
    rewrite EK in X. rewrite EK' in Y. unfold row_names in X, Y. rewrite nth_error_map', A in X. rewrite nth_error_map', B in Y. cbn in X, Y.
    destruct HR as (_ & R2 & _). rewrite (re_nth ps _ _ 0%Z p' p R2 C) in Y. congruence. }
  subst k'. exists d, d'. split; [reflexivity|]. split; [eapply nth_error_In, Hd'|]. split; [rewrite Ld', (lenps n ps HP); reflexivity|].
  intros i' i Ei. pose proof (ps_lt n ps HP i' i Ei) as Hi. assert (Hi' : i' < n) by (rewrite <- (lenps n ps HP); apply nth_error_Some; congruence).
  assert (T : nth_error d i = Some true <-> nth_error d' i' = Some true).
  { rewrite Td, Td', (re_descends n ps ev ev' HP HO HR p p' i i' C Ei). split; (intros [X|X]; [left|right; exact X]); [subst i; eapply ps_inj; eassumption | subst i'; congruence]. }
  destruct (nth_error d i) as [x|] eqn:Ex; [|apply nth_error_None in Ex; lia]. destruct (nth_error d' i') as [y|] eqn:Ey; [|apply nth_error_None in Ey; lia].
  f_equal. destruct x, y; try reflexivity; exfalso; assert (Some false = Some true) by (apply T; reflexivity); discriminate.
Qed.

(** ** Links of a reordered event, one direction. *)
Section Transfer.
  Variables (A A' : nat -> nat -> Prop) (S : nat -> nat -> Prop) (N N' : nat).
  Hypotheses (ex : forall i, i < N -> exists i', S i i') (ex' : forall i', i' < N' -> exists i, S i i').
  Hypotheses (fn : forall i a b, S i a -> S i b -> a = b) (inj : forall a b i, S a i -> S b i -> a = b).
  Hypotheses (dom : forall i j, A i j -> i < N /\ j < N) (dom' : forall i j, A' i j -> i < N' /\ j < N').
  Hypothesis tr : forall i i' j j', S i i' -> S j j' -> (A i j <-> A' i' j').
  Lemma tr_card i i' k : S i i' -> card (A i) k -> card (A' i') k.
  Proof using ex ex' fn inj dom dom' tr.
    intros Si (l & ND & HI & L).
    assert (X : exists l', Forall2 S l l'). { assert (B : forall x, In x l -> x < N) by (intros x Hx; apply (dom i x), HI, Hx). clear - B ex. induction l as [|x l IH]; [exists []; constructor|]. destruct (ex x) as (y & Hy); [apply B; left; reflexivity|]. destruct IH as (l' & H); [intros; apply B; right; assumption|]. exists (y :: l'). constructor; assumption. }
    destruct X as (l' & F). assert (F1 : forall y, In y l' <-> exists x, In x l /\ S x y).
    { intros y. split.
      - clear - F. induction F as [|a b r r' H _ IH]; [intros []|]. intros [<-|I]; [exists a; split; [left; reflexivity|exact H]|]. destruct (IH I) as (x & X1 & X2). exists x. split; [right; exact X1|exact X2].
      - intros (x & Hx & Hs). clear - F Hx Hs fn. induction F as [|a b r r' H _ IH]; [contradiction|]. destruct Hx as [->|Hx]; [left; eapply fn; eassumption|right; apply IH; exact Hx]. }
    exists l'. split; [|split].
    - clear - F ND inj. induction F as [|a b r r' H F IH]; [constructor|]. inversion ND; subst. constructor; [|apply IH; assumption]. intros I.
      assert (exists x, In x r /\ S x b) as (x & X1 & X2). { clear - F I. induction F as [|a' b' r r' H _ IH]; [contradiction|]. destruct I as [->|I]; [exists a'; split; [left; reflexivity|exact H]|]. destruct (IH I) as (x & X1 & X2). exists x. split; [right; exact X1|exact X2]. }
      pose proof (inj _ _ _ H X2). subst x. contradiction.
    - intros y. rewrite F1. split.
      + intros (x & Hx & Hs). apply (tr i i' x y Si Hs). apply HI. exact Hx.
      + intros Hy. destruct (dom' i' y Hy) as (_ & Ly). destruct (ex' y Ly) as (x & Hs). exists x. split; [|exact Hs]. apply HI. apply (tr i i' x y Si Hs). exact Hy.
    - rewrite <- L. clear - F. induction F; cbn; congruence.
  Qed.
  Lemma tr_closest i i' j j' : unequal A -> S i i' -> S j j' -> closest A i j -> closest A' i' j'.
  Proof using ex ex' fn inj dom dom' tr.
    intros U Si Sj (H1 & H2). split; [apply (tr i i' j j' Si Sj); exact H1|]. intros x' Hx'. destruct (dom' x' j' Hx') as (Lx & _). destruct (ex' x' Lx) as (x & Sx).
    pose proof (proj2 (tr x x' j j' Sx Sj) Hx') as Hx. destruct (H2 x Hx) as (k & k' & C & C' & K). exists k, k'. split; [eapply tr_card; eassumption|]. split; [eapply tr_card; eassumption|].
    destruct K as [K|(K & Kx)]; [left; exact K|]. right. split; [exact K|]. destruct (Nat.eq_dec i x) as [->|Ne]; [rewrite (fn _ _ _ Si Sx); lia|]. exfalso. exact (U i x j k k' H1 Hx Ne C C' K).
  Qed.
End Transfer.

Lemma unequal_tr (A A' : nat -> nat -> Prop) (S : nat -> nat -> Prop) N N' :
  (forall i, i < N -> exists i', S i i') -> (forall i', i' < N' -> exists i, S i i') -> (forall i a b, S i a -> S i b -> a = b) -> (forall a b i, S a i -> S b i -> a = b) ->
  (forall i j, A i j -> i < N /\ j < N) -> (forall i j, A' i j -> i < N' /\ j < N') -> (forall i i' j j', S i i' -> S j j' -> (A i j <-> A' i' j')) -> unequal A -> unequal A'.
Proof.
  intros ex ex' fn inj dom dom' tr U a' b' j' k k' Ha Hb Ne Ca Cb. destruct (ex' a') as (a & Sa); [apply (dom' _ _ Ha)|]. destruct (ex' b') as (b & Sb); [apply (dom' _ _ Hb)|]. destruct (ex' j') as (j & Sj); [apply (dom' _ _ Ha)|].
  apply (U a b j k k'); [apply (tr a a' j j'); assumption | apply (tr b b' j j'); assumption | intros ->; apply Ne; eapply fn; eassumption | |].
  - apply (tr_card A' A (fun x y => S y x) N' N) with (i := a'); auto; [intros i x y H1 H2; exact (inj _ _ _ H1 H2) | intros x y i H1 H2; exact (fn _ _ _ H1 H2) | intros i i' x x' H1 H2; symmetry; apply tr; assumption].
  - apply (tr_card A' A (fun x y => S y x) N' N) with (i := b'); auto; [intros i x y H1 H2; exact (inj _ _ _ H1 H2) | intros x y i H1 H2; exact (fn _ _ _ H1 H2) | intros i i' x x' H1 H2; symmetry; apply tr; assumption].
Qed.

(** Chains of links that correspond. *)
Lemma tr_chain (L L' : nat -> nat -> Prop) (S : nat -> nat -> Prop) N N' :
  (forall i, i < N -> exists i', S i i') -> (forall i', i' < N' -> exists i, S i i') -> (forall i j, L i j -> i < N /\ j < N) -> (forall i j, L' i j -> i < N' /\ j < N') ->
  (forall i i' j j', S i i' -> S j j' -> (L i j <-> L' i' j')) ->
  forall l, chain L l -> exists l', Forall2 S l l' /\ chain L' l'.
Proof.
  intros ex ex' dom dom' tr l (r & ((c & Hc) & Hr) & D). destruct (ex r) as (r' & Sr); [apply (dom _ _ Hc)|]. destruct (ex c) as (c' & Sc); [apply (dom _ _ Hc)|].
  assert (R' : root L' r').
  { split; [exists c'; apply (tr r r' c c'); assumption|]. intros p' Hp. destruct (ex' p') as (p & Sp); [apply (dom' _ _ Hp)|]. apply (Hr p). apply (tr p p' r r'); assumption. }
  assert (X : forall x l, down L x l -> forall x', S x x' -> exists l', Forall2 S l l' /\ down L' x' l').
  { induction 1 as [x|x y l0 Hxy _ IH]; intros x' Sx; [exists [x']; split; [repeat constructor; exact Sx|constructor]|]. destruct (ex y) as (y' & Sy); [apply (dom _ _ Hxy)|]. destruct (IH y' Sy) as (l' & F & Dn).
    exists (x' :: l'). split; [constructor; assumption|]. econstructor; [|exact Dn]. apply (tr x x' y y'); assumption. }
  destruct (X r l D r' Sr) as (l' & F & Dn). exists l'. split; [exact F|]. exists r'. split; assumption.
Qed.
Lemma children_ex (Q : nat -> Prop) N : (forall c, Q c -> c < N) -> exists cs, StronglySorted lt cs /\ forall c, In c cs <-> Q c.
Proof.
  intros B. assert (X : exists cs, StronglySorted lt cs /\ forall c, In c cs <-> Q c /\ c < N).
  { clear B. induction N as [|N IH]; [exists []; split; [constructor|]; intros c; split; [intros []|intros (_ & H); lia]|]. destruct IH as (cs & SS & H).
    destruct (classic (Q N)) as [QN|QN].
    - exists (cs ++ [N]). split.
      + clear - SS H. assert (forall c, In c cs -> c < N) as B by (intros c Hc; apply H; exact Hc). clear H. induction SS as [|x l SS IH F]; cbn; [repeat constructor|]. constructor; [apply IH; intros; apply B; right; assumption|].
        apply Forall_app. split; [exact F|]. constructor; [apply B; left; reflexivity|constructor].
      + intros c. rewrite in_app_iff, H. cbn. split; [intros [(A1 & A2)|[<-|[]]]; split; auto; lia|]. intros (A1 & A2). destruct (Nat.eq_dec c N); [subst; auto|left; split; [exact A1|lia]].
    - exists cs. split; [exact SS|]. intros c. rewrite H. split; intros (A1 & A2); (split; [exact A1|]); [lia|]. destruct (Nat.eq_dec c N); [subst; contradiction|lia]. }
  destruct X as (cs & SS & H). exists cs. split; [exact SS|]. intros c. rewrite H. split; [tauto|]. intros Hc. split; [exact Hc|apply B; exact Hc].
Qed.
Lemma anc_dom ev i j : anc_ev ev i j -> i < length (hard_rows ev) /\ j < length (hard_rows ev).
Proof. intros (_ & p & q & A & B & _). split; apply nth_error_Some; congruence. Qed.
Lemma Forall2_last {A B} (S : A -> B -> Prop) l l' a b : Forall2 S l l' -> l <> [] -> S (last l a) (last l' b).
Proof. intros F. induction F as [|x y r r' H F IH]; [contradiction|]. intros _. destruct F as [|x2 y2 r2 r2']; [exact H|]. apply IH. discriminate. Qed.

(** One direction of C210. *)
Lemma nesting_one name ev ev' n depth desc desc' tree tree' ps :
  event_ok n ev -> event_ok n ev' -> (forall z, has_colon (name z) = false) -> (forall z, name z <> "latent"%string) -> has_intermediate ev -> has_intermediate ev' ->
  hard_descendants name ev None false true = Ok (MGrp "or" desc) -> hard_descendants name ev' None false true = Ok (MGrp "or" desc') ->
  length (hard_rows ev) <= depth -> length (hard_rows ev') <= depth -> hierarchy name depth ev None = Ok tree -> hierarchy name depth ev' None = Ok tree' ->
  (forall i, i < length (hard_rows ev) -> exists i', ps i i') -> (forall i', i' < length (hard_rows ev') -> exists i, ps i i') ->
  (forall i a b, ps i a -> ps i b -> a = b) -> (forall a b i, ps a i -> ps b i -> a = b) ->
  (forall i i' j j', ps i i' -> ps j j' -> (anc_ev ev i j <-> anc_ev ev' i' j')) -> unequal (anc_ev ev) -> unequal (anc_ev ev') ->
  (forall i i', ps i i' -> nth i (dkeys desc) ""%string = nth i' (dkeys desc') ""%string) ->
  forall path m, at_path tree path = Some m -> exists m', at_path tree' path = Some m' /\
    match m, m' with MArr _, MArr _ => True | MGrp a ks, MGrp a' ks' => a = a' /\ (forall k, In k (dkeys ks) -> In k (dkeys ks')) | _, _ => False end /\
    (path <> [] -> forall a ks, m = MGrp a ks -> exists l l', chain (closest (anc_ev ev)) l /\ chain (closest (anc_ev ev')) l' /\ Forall2 ps l l' /\
       path = map (fun i => nth i (dkeys desc) ""%string) l /\ path = map (fun i => nth i (dkeys desc') ""%string) l').
Proof.
  intros HO HO' HN HL HI HI' HD HD' LD LD' HT HT' ex ex' fn inj tr U U' KEY path m Hm.
  destruct (C45_tree name ev n depth desc tree HO HN HL HI HD LD HT) as (T1 & T2 & T3 & T4). destruct (C45_tree name ev' n depth desc' tree' HO' HN HL HI' HD' LD' HT') as (T1' & T2' & T3' & T4').
  assert (LK : forall i i' j j', ps i i' -> ps j j' -> (closest (anc_ev ev) i j <-> closest (anc_ev ev') i' j')).
  { intros i i' j j' Si Sj. split.
    - apply (tr_closest (anc_ev ev) (anc_ev ev') ps (length (hard_rows ev)) (length (hard_rows ev'))); auto; apply anc_dom.
    - apply (tr_closest (anc_ev ev') (anc_ev ev) (fun x y => ps y x) (length (hard_rows ev')) (length (hard_rows ev))); auto; try apply anc_dom; [intros i0 a b H1 H2; exact (inj _ _ _ H1 H2) | intros a b i0 H1 H2; exact (fn _ _ _ H1 H2) | intros a b c d H1 H2; symmetry; apply tr; assumption]. }
  assert (LDm : forall e i j, closest (anc_ev e) i j -> i < length (hard_rows e) /\ j < length (hard_rows e)) by (intros e i j (H & _); apply anc_dom; exact H).
  assert (CH : forall l, chain (closest (anc_ev ev)) l -> exists l', Forall2 ps l l' /\ chain (closest (anc_ev ev')) l').
  { apply (tr_chain _ _ ps _ _ ex ex'); auto. }
  assert (KM : forall l l', Forall2 ps l l' -> map (fun i => nth i (dkeys desc) ""%string) l = map (fun i => nth i (dkeys desc') ""%string) l').
  { induction 1; cbn; [reflexivity|]. f_equal; [apply KEY; assumption|assumption]. }
  assert (KIDS : forall e x, exists cs, children (closest (anc_ev e)) x cs). { intros e x. apply (children_ex (closest (anc_ev e) x) (length (hard_rows e))). intros c Hc. apply (LDm e x c Hc). }
  assert (NE : forall (e : event) l, chain (closest (anc_ev e)) l -> l <> []) by (intros e l (r & _ & D); inversion D; discriminate).
  assert (CSUB : forall x x' cs cs', ps x x' -> children (closest (anc_ev ev)) x cs -> children (closest (anc_ev ev')) x' cs' ->
    (cs = [] <-> cs' = []) /\ forall k, In k (map (fun i => nth i (dkeys desc) ""%string) cs) -> In k (map (fun i => nth i (dkeys desc') ""%string) cs')).
  { intros x x' cs cs' Sx (_ & C) (_ & C'). split.
    - split; intros ->.
      + destruct cs' as [|c' cs']; [reflexivity|]. pose proof (proj1 (C' c') (or_introl eq_refl)) as Hc. destruct (ex' c') as (c & Sc); [apply (LDm _ _ _ Hc)|]. destruct (proj2 (C c)). apply (LK x x' c c' Sx Sc). exact Hc.
      + destruct cs as [|c cs]; [reflexivity|]. pose proof (proj1 (C c) (or_introl eq_refl)) as Hc. destruct (ex c) as (c' & Sc); [apply (LDm _ _ _ Hc)|]. destruct (proj2 (C' c')). apply (LK x x' c c' Sx Sc). exact Hc.
    - intros k Hk. apply in_map_iff in Hk as (c & <- & Hc). apply C in Hc. destruct (ex c) as (c' & Sc); [apply (LDm _ _ _ Hc)|]. rewrite (KEY c c' Sc). apply in_map_iff. exists c'. split; [reflexivity|]. apply C'. apply (LK x x' c c' Sx Sc). exact Hc. }
  destruct path as [|k path].
  - cbn in Hm. injection Hm as <-. destruct T1 as (rs & kids & _ & R & -> & DK). destruct T1' as (rs' & kids' & _ & R' & -> & DK'). exists (MGrp "or" kids'). split; [reflexivity|]. split; [|intros F; destruct (F eq_refl)]. split; [reflexivity|].
    intros k Hk. rewrite DK in Hk. apply in_map_iff in Hk as (r & <- & Hr). apply R in Hr as Hr'. destruct (CH [r]) as (l' & F & C); [exists r; split; [exact Hr'|constructor]|].
    inversion F as [|? r' ? ? Sr F']; subst. inversion F'; subst. rewrite (KEY r r' Sr), DK'. apply in_map_iff. exists r'. split; [reflexivity|]. apply R'. destruct C as (r0 & R0 & D0). inversion D0; subst; [exact R0|]. match goal with H : down _ _ [] |- _ => inversion H end.
  - destruct (T3 (k :: path) m) as (l & Hl & [Ep|(Ep & c & Hc)]); [discriminate|exact Hm| |].
    + destruct (CH l Hl) as (l' & F & Hl'). rewrite (KM l l' F) in Ep. destruct (KIDS ev (last l 0)) as (cs & HC). destruct (KIDS ev' (last l' 0)) as (cs' & HC').
      pose proof (Forall2_last ps l l' 0 0 F (NE ev l Hl)) as SL. destruct (CSUB _ _ _ _ SL HC HC') as (Z & SUB). pose proof (T2 l cs Hl HC) as W. pose proof (T2' l' cs' Hl' HC') as W'. rewrite (KM l l' F) in W. rewrite <- Ep in W, W'.
      destruct cs as [|c0 cs].
      * rewrite (proj1 Z eq_refl) in W'. destruct W as (d & Wd & _). destruct W' as (d' & Wd' & _). rewrite Hm in Wd. injection Wd as ->. exists (MArr d'). split; [exact Wd'|]. split; [exact I|]. intros _ ? ? F0. discriminate F0.
      * destruct cs' as [|c0' cs']; [discriminate (proj2 Z eq_refl)|]. destruct W as (sub & Ws & Wk). destruct W' as (sub' & Ws' & Wk'). rewrite Hm in Ws. injection Ws as ->. exists (MGrp "or" sub'). split; [exact Ws'|].
        split; [|intros _ ? ? _; exists l, l'; split; [exact Hl|]; split; [exact Hl'|]; split; [exact F|]; split; [rewrite (KM l l' F); exact Ep|exact Ep]]. split; [reflexivity|].
        intros q Hq. rewrite Wk in Hq. rewrite Wk'. apply in_app_iff in Hq as [Hq|Hq]; apply in_app_iff; [left; apply SUB; exact Hq|right; exact Hq].
    + destruct (CH l Hl) as (l' & F & Hl'). rewrite (KM l l' F) in Ep. pose proof (Forall2_last ps l l' 0 0 F (NE ev l Hl)) as SL. destruct (KIDS ev (last l 0)) as (cs & HC). destruct (KIDS ev' (last l' 0)) as (cs' & HC').
      destruct (CSUB _ _ _ _ SL HC HC') as (Z & SUB). assert (CN : cs <> []) by (intros ->; destruct (proj2 (proj2 HC c) Hc)).
      assert (LAT : forall e d t l0 cs0, event_ok n e -> has_intermediate e -> hard_descendants name e None false true = Ok (MGrp "or" d) -> length (hard_rows e) <= depth -> hierarchy name depth e None = Ok t ->
        chain (closest (anc_ev e)) l0 -> children (closest (anc_ev e)) (last l0 0) cs0 -> cs0 <> [] -> exists lat, at_path t (map (fun i => nth i (dkeys d) ""%string) l0 ++ ["latent"%string]) = Some (MArr lat)).
      { clear - HN HL. intros e d t l0 cs0 O I D L T C CC NN. destruct (C45_tree name e n depth d t O HN HL I D L T) as (_ & X2 & _ & _). pose proof (X2 l0 cs0 C CC) as W. destruct cs0 as [|c0 cs0]; [contradiction|]. destruct W as (sub & Ws & _).
        assert (IN : exists p0 d0, nth_error d (last l0 0) = Some (p0, MArr d0)).
        { destruct CC as (_ & CC). destruct (proj1 (CC c0) (or_introl eq_refl)) as (AA & _). destruct (C40_hard_descendants name e n false true O HN) as (d2 & E2 & _ & K2). rewrite D in E2. injection E2 as <-.
          destruct AA as (_ & p & q & A1 & _). destruct (K2 _ _ A1) as (k0 & m0 & Q & _). exists k0, m0. exact Q. }
        destruct IN as (p0 & d0 & IN). destruct (C47_latent name e n depth d t l0 sub p0 d0 O HN HL I D L T C Ws IN) as (D0 & lat & _ & _ & GL & _). exists lat.
        clear - Ws GL. revert t Ws. induction (map (fun i => nth i (dkeys d) ""%string) l0) as [|x r IH]; intros t Ws; cbn in *; [injection Ws as ->; cbn; rewrite GL; reflexivity|]. destruct t as [|a ks]; [discriminate|]. destruct (dget x ks); [|discriminate]. apply IH. exact Ws. }
      destruct (LAT ev desc tree l cs HO HI HD LD HT Hl HC CN) as (lat & E1). rewrite (KM l l' F) in E1. rewrite <- Ep, Hm in E1. injection E1 as ->.
      destruct (LAT ev' desc' tree' l' cs' HO' HI' HD' LD' HT' Hl' HC') as (lat' & E2); [intros E; apply CN, Z, E|]. exists (MArr lat'). rewrite Ep. split; [exact E2|]. split; [exact I|]. intros _ ? ? F0. discriminate F0.
Qed.

Section Both.
  Variables (name : Z -> string) (n depth : nat) (ps : list nat) (ev ev' : event) (desc desc' : list (string * mask)) (tree tree' : mask).
  Hypotheses (HO : event_ok n ev) (HN : forall z, has_colon (name z) = false) (HL : forall z, name z <> "latent"%string) (HP : Permutation ps (seq 0 n)) (HR : reordered_event ps ev ev').
  Hypotheses (ND : distinct_names name ev) (HI : has_intermediate ev) (HU : unequal (anc_ev ev)) (LD : length (hard_rows ev) <= depth).
  Hypotheses (HD : hard_descendants name ev None false true = Ok (MGrp "or" desc)) (HD' : hard_descendants name ev' None false true = Ok (MGrp "or" desc')).
  Hypotheses (HT : hierarchy name depth ev None = Ok tree) (HT' : hierarchy name depth ev' None = Ok tree').
  Let S := same_parton ps ev ev'.
  Lemma b_len : length (hard_rows ev') = length (hard_rows ev).
  Proof using HO HP HR. rewrite <- (Permutation_length (rows_perm n ps ev ev' HP HO HR)), map_length. reflexivity. Qed.
  Lemma b_int : has_intermediate ev'.
  Proof using HO HP HR HI. destruct HI as (z & Hz & E). exists z. split; [|exact E]. destruct HO as (_ & _ & L3 & _). apply (reorder_In ps (e_status ev) (e_status ev')); [rewrite L3; exact HP|apply HR|exact Hz]. Qed.
  Lemma b_unequal : unequal (anc_ev ev').
  Proof using HO HP HR HU.
    apply (unequal_tr (anc_ev ev) (anc_ev ev') S (length (hard_rows ev)) (length (hard_rows ev'))); try apply anc_dom; try exact HU.
    - apply (same_ex n ps ev ev' HP HO HR). - apply (same_ex' n ps ev ev' HP HO HR). - apply (same_fun n ps ev ev' HP). - apply same_inj. - apply (same_anc n ps ev ev' HP HO HR).
  Qed.
  Lemma b_desc i i' : S i i' -> exists k d d', nth_error desc i = Some (k, MArr d) /\ nth_error desc' i' = Some (k, MArr d') /\ reorders ps d d'.
  Proof using HO HN HP HR ND HD HD'.
    intros Si. destruct (C209_hard_descendants name n ps ev ev' false true HO HN HP HR ND) as (d1 & d1' & E & E' & PK & NK & K).
    assert (d1 = desc) by congruence. assert (d1' = desc') by congruence. subst d1 d1'.
    destruct Si as (p & p' & A & B & C). destruct (C40_hard_descendants name ev n false true HO HN) as (d2 & E2 & (LL & N2 & Q2) & K2). assert (d2 = desc) by congruence. subst d2.
    destruct (C40_hard_descendants name ev' n false true (ev_ok' n ps ev ev' HP HO HR) HN) as (d2' & E2' & (LL' & N2' & Q2') & K2'). assert (d2' = desc') by congruence. subst d2'.
    destruct (K2 i p A) as (k & d & G & _). destruct (K2' i' p' B) as (k' & d' & G' & _).
    assert (NM : exists nm, nth_error (row_names name ev) i = Some nm /\ nth_error (row_names name ev') i' = Some nm).
    { unfold row_names. rewrite !nth_error_map', A, B. cbn. destruct HR as (_ & R2 & _). rewrite (re_nth ps _ _ 0%Z p' p R2 C). eauto. }
    destruct NM as (nm & M1 & M2). pose proof (Q2 i nm M1) as X. pose proof (Q2' i' nm M2) as X'.
    assert (CO : forall l, NoDup l -> In nm l -> count_occ string_dec l nm = 1) by (intros l Hl Hin; apply (proj1 (NoDup_count_occ' string_dec l) Hl); exact Hin).
    rewrite CO in X; [|exact ND|eapply nth_error_In, M1]. rewrite CO in X'; [|eapply Permutation_NoDup; [apply Permutation_sym, (names_perm n ps ev ev' HP HO HR name)|exact ND]|eapply nth_error_In, M2].
    unfold dkeys in X, X'. rewrite nth_error_map', G in X. rewrite nth_error_map', G' in X'. cbn in X, X'. injection X as ->. injection X' as ->.
    exists nm, d, d'. split; [exact G|]. split; [exact G'|]. destruct (K nm (MArr d)) as (e1 & e1' & E3 & I3 & R3); [eapply nth_error_In, G|]. injection E3 as <-.
    assert (e1' = d'); [|subst; exact R3]. apply In_nth_error in I3 as (j & Ej). assert (j = i'); [|subst j; congruence].
    apply (proj1 (NoDup_nth_error (dkeys desc')) N2'); unfold dkeys; [rewrite map_length; apply nth_error_Some; congruence|rewrite !nth_error_map', Ej, G'; reflexivity].
  Qed.
  Lemma b_key i i' : S i i' -> nth i (dkeys desc) ""%string = nth i' (dkeys desc') ""%string.
  Proof using HO HN HP HR ND HD HD'.
    intros Si. destruct (b_desc i i' Si) as (k & d & d' & A & B & _). unfold dkeys. transitivity k; [|symmetry]; apply nth_error_nth; rewrite nth_error_map', ?A, ?B; reflexivity.
  Qed.
End Both.

(** C210: reordering the records changes neither the names nor the nesting of the hierarchy. *)
Theorem C210_nesting : forall name n depth ps ev ev', event_ok n ev -> (forall z, has_colon (name z) = false) -> (forall z, name z <> "latent"%string) ->
  Permutation ps (seq 0 n) -> reordered_event ps ev ev' -> distinct_names name ev -> has_intermediate ev -> unequal (anc_ev ev) -> length (hard_rows ev) <= depth ->
  exists tree tree', hierarchy name depth ev None = Ok tree /\ hierarchy name depth ev' None = Ok tree' /\
    (forall path, match at_path tree path, at_path tree' path with
                  | Some (MGrp a ks), Some (MGrp a' ks') => a = a' /\ forall k, In k (dkeys ks) <-> In k (dkeys ks')
                  | Some (MArr _), Some (MArr _) | None, None => True
                  | _, _ => False
                  end) /\
    (own_end (e_edges ev) -> forall path a ks a' ks', path <> [] -> at_path tree path = Some (MGrp a ks) -> at_path tree' path = Some (MGrp a' ks') ->
       exists d d', data (MGrp a ks) = Ok d /\ data (MGrp a' ks') = Ok d' /\ reorders ps d d').
Proof.
  intros name n depth ps ev ev' HO HN HL HP HR ND HI HU LD. pose proof (ev_ok' n ps ev ev' HP HO HR) as HO'. pose proof (b_len n ps ev ev' HO HP HR) as BL.
  destruct (C45_terminates name ev n HO HN HL) as (tree & T0). pose proof (T0 depth LD) as HT. destruct (C45_terminates name ev' n HO' HN HL) as (tree' & T0'). pose proof (T0' depth ltac:(rewrite BL; exact LD)) as HT'. clear T0 T0'.
  destruct (C209_hard_descendants name n ps ev ev' false true HO HN HP HR ND) as (desc & desc' & HD & HD' & _).
  pose proof (b_int n ps ev ev' HO HP HR HI) as HI'. pose proof (b_unequal n ps ev ev' HO HP HR HU) as HU'.
  assert (LD' : length (hard_rows ev') <= depth) by (rewrite BL; exact LD).
  pose proof (b_key name n ps ev ev' desc desc' HO HN HP HR ND HD HD') as BK.
  pose proof (nesting_one name ev ev' n depth desc desc' tree tree' (same_parton ps ev ev') HO HO' HN HL HI HI' HD HD' LD LD' HT HT'
    (same_ex n ps ev ev' HP HO HR) (same_ex' n ps ev ev' HP HO HR) (same_fun n ps ev ev' HP) (same_inj ps ev ev') (same_anc n ps ev ev' HP HO HR) HU HU' BK) as FW.
  assert (BW : forall path m, at_path tree' path = Some m -> exists m', at_path tree path = Some m' /\
    match m, m' with MArr _, MArr _ => True | MGrp a ks, MGrp a' ks' => a = a' /\ (forall k, In k (dkeys ks) -> In k (dkeys ks')) | _, _ => False end).
  { intros path m Hm. destruct (nesting_one name ev' ev n depth desc' desc tree' tree (fun x y => same_parton ps ev ev' y x) HO' HO HN HL HI' HI HD' HD LD' LD HT' HT
      (same_ex' n ps ev ev' HP HO HR) (same_ex n ps ev ev' HP HO HR) (fun i a b H1 H2 => same_inj ps ev ev' a b i H1 H2) (fun a b i H1 H2 => same_fun n ps ev ev' HP i a b H1 H2)
      (fun i i' j j' H1 H2 => iff_sym (same_anc n ps ev ev' HP HO HR i' i j' j H1 H2)) HU' HU (fun i i' H => eq_sym (BK i' i H)) path m Hm) as (m' & A & B & _). eauto. }
  exists tree, tree'. split; [exact HT|]. split; [exact HT'|]. split.
  - intros path. destruct (at_path tree path) as [m|] eqn:E.
    + destruct (FW path m E) as (m' & E' & K & _). rewrite E'. destruct m as [|a ks], m' as [|a' ks']; try contradiction; [exact I|]. destruct K as (K0 & K). split; [exact K0|]. intros k. split; [apply K|].
      destruct (BW path _ E') as (m2 & E2 & K2). rewrite E in E2. injection E2 as <-. apply K2.
    + destruct (at_path tree' path) as [m'|] eqn:E'; [|exact I]. destruct (BW path m' E') as (m2 & E2 & _). congruence.
  - intros OE path a ks a' ks' NE E E'. destruct (FW path _ E) as (m' & E2 & _ & W). rewrite E' in E2. injection E2 as <-. destruct (W NE a ks eq_refl) as (l & l' & Cl & Cl' & F & Pl & Pl').
    assert (NN : l <> []) by (destruct Cl as (r & _ & D); inversion D; discriminate).
    destruct (b_desc name n ps ev ev' desc desc' HO HN HP HR ND HD HD' _ _ (Forall2_last _ l l' 0 0 F NN)) as (k & d & d' & G & G' & R).
    assert (OE' : own_end (e_edges ev')).
    { destruct HO as (L1 & _). destruct HR as (R1 & _). assert (HPe : Permutation ps (seq 0 (length (e_edges ev)))) by (rewrite L1; exact HP).
      intros p q x y c Hp Hq NS. destruct (ps_of n ps HP p) as (p0 & Ep); [rewrite <- (re_len n ps HP _ _ R1); apply nth_error_Some; congruence|]. destruct (ps_of n ps HP q) as (q0 & Eq); [rewrite <- (re_len n ps HP _ _ R1); apply nth_error_Some; congruence|].
      rewrite (re_eq ps _ _ _ _ R1 Ep) in Hp. rewrite (re_eq ps _ _ _ _ R1 Eq) in Hq. rewrite (re_src ps _ _ HPe R1) in NS. pose proof (OE p0 q0 x y c Hp Hq NS). subst q0. eapply ps_inj; eassumption. }
    assert (a = "or"%string /\ a' = "or"%string) as (-> & ->).
    { destruct (C45_tree name ev n depth desc tree HO HN HL HI HD LD HT) as (_ & T2 & _). destruct (C45_tree name ev' n depth desc' tree' HO' HN HL HI' HD' LD' HT') as (_ & T2' & _).
      destruct (children_ex (closest (anc_ev ev) (last l 0)) (length (hard_rows ev))) as (cs & C1); [intros c (Hc & _); apply (anc_dom ev _ _ Hc)|]. destruct (children_ex (closest (anc_ev ev') (last l' 0)) (length (hard_rows ev'))) as (cs' & C1'); [intros c (Hc & _); apply (anc_dom ev' _ _ Hc)|].
      pose proof (T2 l cs Cl C1) as W1. pose proof (T2' l' cs' Cl' C1') as W1'. rewrite <- Pl in W1. rewrite <- Pl' in W1'. rewrite E in W1. rewrite E' in W1'.
      destruct cs, cs'; repeat match goal with H : exists _, _ |- _ => destruct H as (? & H) end; destruct W1 as (W1 & _), W1' as (W1' & _); try discriminate; split; congruence. }
    rewrite Pl in E. rewrite Pl' in E'.
    destruct (C47_exact name ev n depth desc tree l ks k d HO HN HL HI HD LD HT OE Cl E G) as (D1 & _). destruct (C47_exact name ev' n depth desc' tree' l' ks' k d' HO' HN HL HI' HD' LD' HT' OE' Cl' E' G') as (D2 & _).
    exists d, d'. auto.
Qed.

(** The hypotheses are met: t and t~ are made, t decays to W+ and b, the W+ to c; the records are written in reverse. *)
Module Demo.
  Definition nm (z : Z) : string :=
    (if Z.eqb z 6 then "t" else if Z.eqb z (-6) then "t~" else if Z.eqb z 24 then "W+" else if Z.eqb z 5 then "b" else if Z.eqb z 4 then "c" else "?")%string.
  Definition ev : event :=
    mkE [(0, 2); (1, 2); (2, 3); (2, 4); (3, 5); (3, 6); (5, 7); (4, 8)]%Z [21; 21; 6; -6; 24; 5; 4; 1]%Z [-21; -21; -22; 22; 22; 23; 23; 1]%Z
        [false; false; false; false; false; true; true; true].
  Definition ev' : event :=
    mkE [(4, 8); (5, 7); (3, 6); (3, 5); (2, 4); (2, 3); (1, 2); (0, 2)]%Z [1; 4; 5; 24; -6; 6; 21; 21]%Z [1; 23; 23; 22; 22; -22; -21; -21]%Z
        [true; true; true; false; false; false; false; false].
  Definition ps := [7; 6; 5; 4; 3; 2; 1; 0].
  Definition desc : list (string * mask) :=
    [("t", MArr [false; false; true; false; true; true; true; false]); ("t~", MArr [false; false; false; true; false; false; false; true]);
     ("W+", MArr [false; false; false; false; true; false; true; false]); ("b", MArr [false; false; false; false; false; true; false; false]);
     ("c", MArr [false; false; false; false; false; false; true; false])]%string.
  Example ok : event_ok 8 ev. Proof. unfold event_ok, ev, fits16, fits32. cbn. repeat split; repeat constructor; lia. Qed.
  Example nm_ok z : has_colon (nm z) = false. Proof. unfold nm. repeat (destruct (Z.eqb _ _); [reflexivity|]). reflexivity. Qed.
  Example nm_latent z : nm z <> "latent"%string. Proof. unfold nm. repeat (destruct (Z.eqb _ _); [discriminate|]). discriminate. Qed.
  Example perm : Permutation ps (seq 0 8). Proof. exact (Permutation_sym (Permutation_rev (seq 0 8))). Qed.
  Example reord : reordered_event ps ev ev'.
  Proof. repeat split; intros j i E; do 8 (destruct j as [|j]; [cbn in E; injection E as <-; reflexivity|]); destruct j; discriminate. Qed.
  Example names : distinct_names nm ev. Proof. unfold distinct_names. vm_compute. repeat constructor; cbn; intuition discriminate. Qed.
  Example inter : has_intermediate ev. Proof. exists 22%Z. split; [cbn; auto|reflexivity]. Qed.
  Example desc_ok : hard_descendants nm ev None false true = Ok (MGrp "or" desc). Proof. vm_compute. reflexivity. Qed.
  Example uneq : unequal (anc_ev ev).
  Proof.
    pose proof (rows_anc nm ev 8 desc ok nm_ok nm_latent desc_ok) as RA. set (rows := hrows ev (masks_of desc)) in *.
    assert (ER : rows = [[true; false; true; true; true]; [false; true; false; false; false]; [false; false; true; false; true]; [false; false; false; true; false]; [false; false; false; false; true]]) by reflexivity.
    assert (A0 : forall i j, anc_ev ev i j <-> (i = 0 /\ (j = 2 \/ j = 3 \/ j = 4)) \/ (i = 2 /\ j = 4)).
    { intros i j. rewrite <- RA, ER. unfold anc_of, entry. split; [|intros [(-> & [-> | [-> | ->]]) | (-> & ->)]; split; (reflexivity || lia)].
      intros (N & H). destruct i as [|[|[|[|[|i]]]]], j as [|[|[|[|[|j]]]]]; cbn in H; try discriminate; try (destruct i; discriminate); try (destruct j; discriminate); lia. }
    assert (C : forall i l, NoDup l -> (forall j, In j l <-> anc_ev ev i j) -> forall k, card (anc_ev ev i) k -> k = length l).
    { intros i l ND H k (l' & ND' & H' & <-). apply Permutation_length, NoDup_Permutation; auto. intros x. rewrite H', H. reflexivity. }
    assert (C0 : forall k, card (anc_ev ev 0) k -> k = 3). { apply (C 0 [2; 3; 4]); [repeat constructor; cbn; intuition lia|]. intros j. rewrite A0. cbn. intuition lia. }
    assert (C2 : forall k, card (anc_ev ev 2) k -> k = 1). { apply (C 2 [4]); [repeat constructor; cbn; intuition lia|]. intros j. rewrite A0. cbn. intuition lia. }
    intros a b j k k' HA HB NE Ka Kb. apply A0 in HA, HB.
    destruct HA as [(-> & _) | (-> & _)], HB as [(-> & _) | (-> & _)]; try congruence; [rewrite (C0 _ Ka), (C2 _ Kb) | rewrite (C2 _ Ka), (C0 _ Kb)]; discriminate.
  Qed.
  Example own : own_end (e_edges ev).
  Proof.
    intros p q a b c Hp Hq Hs. unfold ev in *. cbn [e_edges] in *.
    assert (S2 : src_of [(0, 2); (1, 2); (2, 3); (2, 4); (3, 5); (3, 6); (5, 7); (4, 8)]%Z 2%Z) by (exists 3%Z; cbn; tauto).
    do 8 (destruct p as [|p]; [cbn in Hp; injection Hp as <- <-; do 8 (destruct q as [|q]; [cbn in Hq; injection Hq; intros; try subst; first [reflexivity | discriminate | contradiction]|]); destruct q; discriminate|]). destruct p; discriminate.
  Qed.
  (** Both runs: the same nesting; the keys come in the order of the records. *)
  Example run :
    hierarchy nm 5 ev None = Ok (MGrp "or" [("t", MGrp "or" [("W+", MGrp "or" [("c", MArr [false; false; false; false; true; false; true; false]); ("latent", MArr [false; false; false; false; false; false; false; false])]); ("b", MArr [false; false; true; false; false; true; false; false]); ("latent", MArr [false; false; false; false; false; false; false; false])])])%string /\
    hierarchy nm 5 ev' None = Ok (MGrp "or" [("t", MGrp "or" [("b", MArr [false; false; true; false; false; true; false; false]); ("W+", MGrp "or" [("c", MArr [false; true; false; true; false; false; false; false]); ("latent", MArr [false; false; false; false; false; false; false; false])]); ("latent", MArr [false; false; false; false; false; false; false; false])])])%string.
  Proof. split; vm_compute; reflexivity. Qed.
End Demo.

Print Assumptions C209_hard_descendants.
Print Assumptions C210_nesting.
