(** C49, C50: partitioning of hadrons among the partons ending at their vertex. *)
From Verif Require Import Prelude Dict Keys MaskTypes SpecMask Mask MaskProofs SpecAdj SpecArray SpecPart Arrays ArraysProofs Adjacency Descend DescendProofs Hierarchy Partition PartProofs.

Section Thms.
  Context {P D : Type} (dist : P -> P -> D) (lt : D -> D -> bool).

  (** C49: same names, nesting, agg_op; latent masks kept; every other leaf is [partitioned]. *)
  Theorem C49_partition_descendants : forall n es status final (pmu : list P) agg kids,
    weak_order lt -> event_ok n es status final pmu -> branches_ok n kids ->
    exists kids', partition_descendants dist lt es status final pmu (MGrp agg kids) = Ok (MGrp agg kids') /\
      forall p m, at_path (MGrp agg kids) p = Some m ->
        exists m', at_path (MGrp agg kids') p = Some m' /\
          match m, m' with
          | MGrp a ks, MGrp a' ks' => a' = a /\ dkeys ks' = dkeys ks
          | MArr d, MArr d' => if has "latent" (tl p) then d' = d
                               else partitioned dist lt es final pmu (selected es status kids) d d'
          | _, _ => False
          end.
  Proof.
    intros n es status final pmu agg kids HW (L1 & L2 & L3 & L4 & HS & HD & HF) (Hne & Hag).
    destruct (partition_ok dist lt HW n es status final pmu L1 L2 L3 L4 HS HD HF agg kids Hne Hag) as (kids' & E & T).
    exists kids'. split; [exact E|]. intros [|k p] m Hm.
    - cbn in Hm. injection Hm as <-. exists (MGrp agg kids'). cbn. split; [reflexivity|]. split; [reflexivity|].
      symmetry. exact (Forall2_dkeys (fun _ v v' => lw (Inv dist lt n es final pmu (selected es status kids)) v v') kids kids' T).
    - cbn [at_path tl] in *. destruct (dget k kids) as [w|] eqn:Ew; [|discriminate].
      destruct (dget_Forall2 _ _ _ _ _ T Ew) as (w' & Ew' & HL). rewrite Ew'.
      destruct (lw_at _ _ _ _ _ HL Hm) as (m' & Em' & HR). exists m'. split; [exact Em'|].
      destruct m, m'; try contradiction; cbn in HR.
      + destruct (has "latent" p); [congruence | apply HR].
      + destruct HR; split; congruence.
  Qed.

  (** The nearest parton named in [partitioned] exists (and is unique). *)
  Theorem C49_nearest_exists : forall n es status final (pmu : list P) v i,
    weak_order lt -> event_ok n es status final pmu -> hadron_vertex es status v ->
    (exists e, incident es v e) -> final_desc es final v i ->
    exists! e, nearest dist lt es pmu v i e.
  Proof.
    intros n es status final pmu v i HW (L1 & L2 & L3 & L4 & HS & HD & HF) HV (e & He) Hi.
    destruct (vertex_desc_ok n es status L1 v HV) as (m & Em & _).
    destruct (partition_leaf_ok dist lt HW n es status final pmu L1 L2 L3 L4 v m (repeat true n) HV Em (repeat_length _ _)) as (d' & _ & _ & _ & H).
    destruct H with (i := i) as (H1 & _).
    - exists e. split; [exact He|]. rewrite nth_error_repeat; [reflexivity|]. destruct He as (a & Ha). rewrite <- L1. apply nth_error_Some. congruence.
    - destruct (H1 Hi) as (e' & Ne & _). exists e'. split; [exact Ne|]. intros x Hx. eapply nearest_unique; eauto.
  Qed.

  Theorem C50_disjoint_leaves : forall n es status final (pmu : list P) agg kids kids' v p q d1 d2 d1' d2',
    weak_order lt -> event_ok n es status final pmu -> branches_ok n kids ->
    partition_descendants dist lt es status final pmu (MGrp agg kids) = Ok (MGrp agg kids') ->
    selected es status kids v ->
    leaf_at agg kids p d1 -> leaf_at agg kids q d2 -> leaf_at agg kids' p d1' -> leaf_at agg kids' q d2' ->
    touches es d1 v -> touches es d2 v ->
    (forall e, incident es v e -> ~ (nth_error d1 e = Some true /\ nth_error d2 e = Some true)) ->
    forall i, final_desc es final v i -> ~ (nth_error d1' i = Some true /\ nth_error d2' i = Some true).
  Proof.
    intros n es status final pmu agg kids kids' v p q d1 d2 d1' d2' HW HE HB Er HV (P1 & T1) (P2 & T2) (P1' & _) (P2' & _) C1 C2 Hdis i Hi (A & B).
    destruct (C49_partition_descendants n es status final pmu agg kids HW HE HB) as (k0 & E0 & H0). assert (k0 = kids') by congruence. subst k0.
    destruct (C49_nearest_exists n es status final pmu v i HW HE (proj1 HV)) as (e & Ne & _); [destruct C1 as (e & ? & _); eauto | exact Hi |].
    destruct (H0 p _ P1) as (m1 & E1 & R1). rewrite P1' in E1. injection E1 as <-. rewrite T1 in R1.
    destruct (H0 q _ P2) as (m2 & E2 & R2). rewrite P2' in E2. injection E2 as <-. rewrite T2 in R2.
    apply (Hdis e (proj1 Ne)). split.
    - apply (proj1 (proj2 R1) v i e); auto.
    - apply (proj1 (proj2 R2) v i e); auto.
  Qed.

  Theorem C50_coverage : forall n es status final (pmu : list P) agg kids kids' v,
    weak_order lt -> event_ok n es status final pmu -> branches_ok n kids ->
    partition_descendants dist lt es status final pmu (MGrp agg kids) = Ok (MGrp agg kids') ->
    selected es status kids v ->
    (forall e, incident es v e -> exists p d, leaf_at agg kids p d /\ nth_error d e = Some true) ->
    forall i, final_desc es final v i -> exists p d', leaf_at agg kids' p d' /\ nth_error d' i = Some true.
  Proof.
    intros n es status final pmu agg kids kids' v HW HE HB Er HV HC i Hi.
    destruct (C49_partition_descendants n es status final pmu agg kids HW HE HB) as (k0 & E0 & H0). assert (k0 = kids') by congruence. subst k0.
    destruct (C49_nearest_exists n es status final pmu v i HW HE (proj1 HV)) as (e & Ne & _); [destruct HV as (_ & e & _ & _ & ? & _); eauto | exact Hi |].
    destruct (HC e (proj1 Ne)) as (p & d & (Hp & Ht) & Hd). destruct (H0 p _ Hp) as (m' & Em & R). destruct m' as [d'|]; [|contradiction]. rewrite Ht in R.
    exists p, d'. split; [split; assumption|]. apply (proj1 (proj2 R) v i e); auto. exists e. split; [apply Ne|exact Hd].
  Qed.
End Thms.

(** A concrete event: two quarks (10 and 20) end at vertex 1, two hadrons (12, 19) and a photon
    leave it; leaf "a" holds the first quark and a hadron of the second, "b" the second quark. *)
Module Demo.
  Definition es : edges := [(0, 1); (0, 1); (1, 2); (1, 3); (5, 6)]%Z.
  Definition status : list Z := [23; 23; 83; -84; 1]%Z.
  Definition final := [false; false; true; true; true].
  Definition pmu : list Z := [10; 20; 12; 19; 0]%Z.
  Definition dst (a b : Z) := Z.abs (a - b).
  Definition kids : list (string * mask) :=
    [("a", MArr [true; false; true; true; true]);
     ("t", MGrp "or" [("b", MArr [false; true; true; true; false]); ("latent", MArr [false; false; true; true; false])])]%string.

  Example run : partition_descendants dst Z.ltb es status final pmu (MGrp "or" kids) =
    Ok (MGrp "or" [("a", MArr [true; false; true; false; true]);
     ("t", MGrp "or" [("b", MArr [false; true; false; true; false]); ("latent", MArr [false; false; true; true; false])])])%string.
  Proof. vm_compute. reflexivity. Qed.

  Lemma hv v : hadron_vertex es status v -> v = 1%Z.
  Proof.
    intros (i & w & s & A & B & C). do 5 (destruct i as [|i]; [cbn in A, B; injection A as <- <-; injection B as <-; try reflexivity; exfalso; revert C; cbn; lia|]). destruct i; discriminate.
  Qed.

  Example event_fine : event_ok 5 es status final pmu.
  Proof.
    repeat split; try reflexivity.
    - repeat constructor; unfold fits16; lia.
    - intros v w i A B _ _. apply hv in A, B. congruence.
    - intros v i A F (a & H). apply hv in A. subst v. do 5 (destruct i as [|i]; [cbn in *; congruence|]). destruct i; discriminate.
  Qed.

  Example branches_fine : branches_ok 5 kids.
  Proof.
    split; [discriminate|]. intros k c [E|[E|[]]]; injection E as <- <-; [constructor; reflexivity|].
    constructor; [right; cbn; auto | discriminate|]. intros k c [E|[E|[]]]; injection E as <- <-; constructor; reflexivity.
  Qed.

  Example order_fine : weak_order Z.ltb.
  Proof. repeat split; intros; rewrite ?Z.ltb_lt in *; try apply Z.ltb_irrefl; lia. Qed.

  Example vertex_selected : selected es status kids 1%Z.
  Proof.
    split; [exists 2, 2%Z, 83%Z; repeat split; reflexivity || lia|].
    exists 0, "a"%string, (MArr [true; false; true; true; true]). split; [exists 0%Z; reflexivity|]. split; [left; reflexivity|constructor; reflexivity].
  Qed.
End Demo.

Print Assumptions C49_partition_descendants.
Print Assumptions C49_nearest_exists.
Print Assumptions C50_disjoint_leaves.
Print Assumptions C50_coverage.
