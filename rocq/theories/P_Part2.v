(** C205, C206: partitioning twice, and partitioning by the distances of parton_hadron_distance. *)
From Coq Require Import Classical.
From Verif Require Import Prelude Dict Keys MaskTypes SpecMask Mask MaskProofs SpecAdj SpecArray SpecPart Arrays ArraysProofs Adjacency Descend DescendProofs Hierarchy Partition PartProofs P_Part P_Equiv.

(** ** Leafwise relations compose. *)
Lemma lw_ind2 (R1 R2 R3 : list bool -> list bool -> Prop) : (forall d a b c, R1 d a -> R2 a b -> R3 d c -> b = c) ->
  forall m x y z, lw R1 m x -> lw R2 x y -> lw R3 m z -> y = z.
Proof.
  intros HR m. induction m as [d|a kids IH] using mask_ind'; intros [x|ax kx] [y|ay ky] [z|az kz] Hx Hy Hz; try contradiction.
  - f_equal. eapply HR; eassumption.
  - apply lw_grp in Hx as (<- & Hx). apply lw_grp in Hy as (<- & Hy). apply lw_grp in Hz as (<- & Hz). f_equal. revert kx ky kz Hx Hy Hz.
    induction IH as [|p r Hp _ IHr]; intros kx ky kz Hx Hy Hz; inversion Hx; subst; inversion Hy; inversion Hz; subst; [reflexivity|].
    f_equal; [|eapply IHr; eassumption].
    match goal with A : lwk R1 p ?q, B : lwk R2 ?q ?q', C : lwk R3 p ?q'' |- _ => destruct q as (k1 & v1), q' as (k2 & v2), q'' as (k3 & v3), A as (E1 & A), B as (E2 & B), C as (E3 & C) end.
    cbn in *. subst k1 k2 k3. destruct (String.eqb (fst p) "latent"); [congruence|]. f_equal. eapply Hp; eassumption.
Qed.

Lemma lw_agg n (R : list bool -> list bool -> Prop) : (forall d a, length d = n -> R d a -> length a = n) -> forall m x, aggregable n m -> lw R m x -> aggregable n x.
Proof.
  intros HR m. induction m as [d|a kids IH] using mask_ind'; intros [x|ax kx] HA Hx; try contradiction; inversion HA; subst.
  - constructor. eapply HR; [|exact Hx]. first [reflexivity | assumption].
  - apply lw_grp in Hx as (<- & Hx). constructor; [assumption | intros ->; inversion Hx; subst; contradiction |].
    match goal with H : forall k v, In (k, v) kids -> aggregable n v |- _ => rename H into HK end. match goal with H : kids <> [] |- _ => clear H end. clear HA.
    revert kx Hx. induction IH as [|p r Hp _ IHr]; intros kx Hx; inversion Hx as [|? q ? ? (E1 & A)]; subst; intros k v Hin; [contradiction|]. destruct Hin as [->|Hin].
    + cbn in E1, A. destruct p as (k0 & v0). cbn in E1, A, Hp. subst k0.
      destruct (String.eqb k "latent"); [subst v0; eapply HK; left; reflexivity | eapply Hp; [eapply HK; left; reflexivity | exact A]].
    + eapply IHr; [|eassumption|exact Hin]. intros k' v' H'. eapply HK. right. exact H'.
Qed.

Lemma lw_true i (R : list bool -> list bool -> Prop) : (forall d a, R d a -> nth_error a i = nth_error d i) -> forall m x, lw R m x -> (true_at i m <-> true_at i x).
Proof.
  intros HR m. induction m as [d|a kids IH] using mask_ind'; intros [x|ax kx] Hx; try contradiction.
  - cbn in Hx. apply HR in Hx. split; intros H; inversion H; subst; constructor; congruence.
  - apply lw_grp in Hx as (<- & Hx).
    assert (K : Forall2 (fun p q => fst p = fst q /\ (true_at i (snd p) <-> true_at i (snd q))) kids kx).
    { revert kx Hx. induction IH as [|p r Hp _ IHr]; intros kx Hx; inversion Hx as [|? q ? ? (E & A)]; subst; constructor; [|apply IHr; assumption].
      split; [exact E|]. destruct (String.eqb (fst p) "latent"); [rewrite A; tauto | apply Hp; exact A]. }
    assert (K1 : forall k v, In (k, v) kids -> exists v', In (k, v') kx /\ (true_at i v <-> true_at i v')).
    { clear - K. induction K as [|p q r r' (E & H) _ IHK]; intros k v [].
      - subst p. cbn in E, H. destruct q as (k' & v'). cbn in E, H. subst k'. exists v'. split; [left; reflexivity|exact H].
      - destruct (IHK k v) as (v' & I & H'); [assumption|]. exists v'. split; [right; exact I|exact H']. }
    assert (K2 : forall k v', In (k, v') kx -> exists v, In (k, v) kids /\ (true_at i v <-> true_at i v')).
    { clear - K. induction K as [|p q r r' (E & H) _ IHK]; intros k v [].
      - subst q. cbn in E, H. destruct p as (k' & v'). cbn in E, H. subst k'. exists v'. split; [left; reflexivity|exact H].
      - destruct (IHK k v) as (v' & I & H'); [assumption|]. exists v'. split; [right; exact I|exact H']. }
    split; intros H; inversion H; subst.
    + apply T_and; [assumption|]. intros k v Hin. destruct (K2 k v Hin) as (v0 & I0 & E0). apply E0. eauto.
    + match goal with Q : In (?k, ?v) kids |- _ => destruct (K1 k v Q) as (v0 & I0 & E0) end. eapply T_or; [assumption | exact I0 | apply E0; assumption].
    + apply T_and; [assumption|]. intros k v Hin. destruct (K1 k v Hin) as (v0 & I0 & E0). apply E0. eauto.
    + match goal with Q : In (?k, ?v) kx |- _ => destruct (K2 k v Q) as (v0 & I0 & E0) end. eapply T_or; [assumption | exact I0 | apply E0; assumption].
Qed.

(** ** C205: a partition by one weighting forgets any earlier partition of the same hierarchy. *)
Theorem C205_repartition : forall P D D' (dist : P -> P -> D) lt (dist' : P -> P -> D') lt' n es status final (pmu : list P) agg kids h1,
  weak_order lt -> weak_order lt' -> event_ok n es status final pmu -> branches_ok n kids ->
  partition_descendants dist' lt' es status final pmu (MGrp agg kids) = Ok h1 ->
  exists h2, partition_descendants dist lt es status final pmu h1 = Ok h2 /\
    partition_descendants dist lt es status final pmu (MGrp agg kids) = Ok h2.
Proof.
  intros P D D' dist lt dist' lt' n es status final pmu agg kids h1 HW HW' HE (Hne & Hag) H1. pose proof HE as (L1 & L2 & L3 & L4 & HS & HD & HFi).
  destruct (partition_ok dist' lt' HW' n es status final pmu L1 L2 L3 L4 HS HD HFi agg kids Hne Hag) as (k1 & E1 & T1).
  assert (h1 = MGrp agg k1) by congruence. subst h1. clear H1.
  set (R1 := Inv dist' lt' n es final pmu (selected es status kids)) in *.
  assert (R1D : forall d a, R1 d a -> partitioned dist' lt' es final pmu (selected es status kids) d a) by (intros d a (_ & H); exact H). clearbody R1.
  assert (Hne1 : k1 <> []) by (intros ->; inversion T1; subst; contradiction).
  assert (LEN : forall d a, length d = n -> R1 d a -> length a = n) by (intros d a L H; destruct (R1D d a H) as (L' & _); congruence).
  assert (KEEP : forall e v d a, hadron_vertex es status v -> incident es v e -> R1 d a -> nth_error a e = nth_error d e).
  { intros e v d a HV HI H. destruct (R1D d a H) as (_ & _ & A). apply A. intros w Hw _ (F & _). exact (HFi v e HV F HI). }
  assert (Hag1 : forall k c, In (k, c) k1 -> aggregable n c).
  { clear - T1 Hag LEN. revert Hag. unfold top in T1. induction T1 as [|p q r r' (E & HL) _ IH]; intros Hag k c []; [subst q|].
    - eapply lw_agg; [exact LEN | | exact HL]. destruct p as (k0 & c0). eapply Hag. left. reflexivity.
    - eapply IH; [|eassumption]. intros k' c' Hin. eapply Hag. right. exact Hin. }
  destruct (partition_ok dist lt HW n es status final pmu L1 L2 L3 L4 HS HD HFi agg k1 Hne1 Hag1) as (k2 & E2 & T2).
  destruct (partition_ok dist lt HW n es status final pmu L1 L2 L3 L4 HS HD HFi agg kids Hne Hag) as (k3 & E3 & T3).
  exists (MGrp agg k2). split; [exact E2|]. rewrite E3. do 2 f_equal.
  assert (SEL : forall v, selected es status k1 v <-> selected es status kids v).
  { intros v. unfold selected. split; intros (HV & e & k & c & I & K & T); (split; [exact HV|]).
    - assert (X : exists c0, In (k, c0) kids /\ (true_at e c0 <-> true_at e c)).
      { clear - T1 K KEEP HV I. unfold top in T1. induction T1 as [|p q r r' (E & HL) _ IH]; [contradiction|]. destruct K as [->|K].
        - destruct p as (k0 & c0). cbn in E, HL. subst k0. exists c0. split; [left; reflexivity|]. apply (lw_true e R1); [|exact HL]. intros d a. exact (KEEP e v d a HV I).
        - destruct (IH K) as (c0 & Hin & Q). exists c0. split; [right; exact Hin | exact Q]. }
      destruct X as (c0 & Hin & Q). exists e, k, c0. split; [exact I|]. split; [exact Hin | apply Q; exact T].
    - assert (X : exists c0, In (k, c0) k1 /\ (true_at e c <-> true_at e c0)).
      { clear - T1 K KEEP HV I. unfold top in T1. induction T1 as [|p q r r' (E & HL) _ IH]; [contradiction|]. destruct K as [->|K].
        - destruct q as (k0 & c0). cbn in E, HL. subst k0. exists c0. split; [left; reflexivity|]. apply (lw_true e R1); [|exact HL]. intros d a. exact (KEEP e v d a HV I).
        - destruct (IH K) as (c0 & Hin & Q). exists c0. split; [right; exact Hin | exact Q]. }
      destruct X as (c0 & Hin & Q). exists e, k, c0. split; [exact I|]. split; [exact Hin | apply Q; exact T]. }
  assert (DET : forall m x y z, lw R1 m x -> lw (Inv dist lt n es final pmu (selected es status k1)) x y -> lw (Inv dist lt n es final pmu (selected es status kids)) m z -> z = y).
  { intros m x y z A B C. symmetry. revert m x y z A B C. apply lw_ind2. intros d a b c HA (_ & Lb & B1 & B2) (_ & Lc & C1 & C2). destruct (R1D d a HA) as (La & A1 & A2).
    assert (TT : forall v, hadron_vertex es status v -> (touches es a v <-> touches es d v)).
    { intros v HV. split; intros (e & I & T); exists e; (split; [exact I|]); [rewrite <- (KEEP e v d a HV I HA) | rewrite (KEEP e v d a HV I HA)]; exact T. }
    apply blist_ext; [congruence|]. intros i.
    destruct (classic (exists v, selected es status kids v /\ touches es d v /\ final_desc es final v i)) as [(v & Sv & T & Fd)|N].
    - destruct (C49_nearest_exists dist lt n es status final pmu v i HW HE) as (e & Ne & _); [apply Sv | destruct T as (e & I & _); eauto | exact Fd |].
      rewrite (B1 v i e (proj2 (SEL v) Sv) (proj2 (TT v (proj1 Sv)) T) Fd Ne), (C1 v i e Sv T Fd Ne). rewrite (KEEP e v d a (proj1 Sv) (proj1 Ne) HA). reflexivity.
    - rewrite B2, C2, A2; [reflexivity | | |].
      + intros v Sv T Fd. apply N. eauto.
      + intros v Sv T Fd. apply N. eauto.
      + intros v Sv T Fd. apply N. exists v. apply SEL in Sv. split; [exact Sv|]. split; [apply TT; [apply Sv | exact T] | exact Fd]. }
  unfold top in *. revert T1 T2 T3 DET. generalize R1 (Inv dist lt n es final pmu (selected es status k1)) (Inv dist lt n es final pmu (selected es status kids)). clear.
  intros Ra Rb Rc T1 T2 T3 DET. revert k2 k3 T2 T3. induction T1 as [|p q r r' (Ek & Hl) _ IH]; intros k2 k3 T2 T3; inversion T2 as [|? q2 ? r2 (Ek2 & Hl2) T2']; inversion T3 as [|? q3 ? r3 (Ek3 & Hl3) T3']; subst; [reflexivity|].
  f_equal; [|apply IH; assumption]. destruct p, q, q2, q3. cbn in *. subst. f_equal. eapply DET; eassumption.
Qed.
Print Assumptions C205_repartition.

(** Partitioning twice is partitioning once. *)
Theorem C205_idempotent : forall P D (dist : P -> P -> D) lt n es status final (pmu : list P) agg kids h1,
  weak_order lt -> event_ok n es status final pmu -> branches_ok n kids ->
  partition_descendants dist lt es status final pmu (MGrp agg kids) = Ok h1 ->
  partition_descendants dist lt es status final pmu h1 = Ok h1.
Proof.
  intros P D dist lt n es status final pmu agg kids h1 HW HE HB H1. destruct (C205_repartition P D D dist lt dist lt n es status final pmu agg kids h1 HW HW HE HB H1) as (h2 & A & B). congruence.
Qed.
Print Assumptions C205_idempotent.

(** The event of P_Part, partitioned first by the distance and then by its opposite. *)
Module Demo2.
  Import P_Part.Demo.
  Definition rev (a b : Z) : bool := Z.ltb b a.
  Example order_rev : weak_order rev.
  Proof. unfold rev. split; [|split]; intros *; rewrite ?Z.ltb_lt; [apply Z.ltb_irrefl|lia|lia]. Qed.
  Example first : exists h1, partition_descendants dst rev es status final pmu (MGrp "or" kids) = Ok h1 /\
    Ok h1 <> partition_descendants dst Z.ltb es status final pmu (MGrp "or" kids) /\
    partition_descendants dst Z.ltb es status final pmu h1 = partition_descendants dst Z.ltb es status final pmu (MGrp "or" kids).
  Proof. eexists. split; [vm_compute; reflexivity|]. split; [vm_compute; discriminate|vm_compute; reflexivity]. Qed.
  Example fine : weak_order Z.ltb /\ event_ok 5 es status final pmu /\ branches_ok 5 kids.
  Proof. split; [exact order_fine|]. split; [exact event_fine|exact branches_fine]. Qed.
End Demo2.
