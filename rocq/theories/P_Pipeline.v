(** C194: the two-step analysis partition_descendants(graph, hierarchy(graph)). *)
From Verif Require Import Prelude Dict Keys MaskTypes SpecMask Mask MaskProofs SpecAdj SpecArray Arrays ArraysProofs Adjacency AdjacencyProofs Composite Descend DescendProofs.
From Verif Require Import SpecHard Hard HardProofs SpecHier Hierarchy HierProofs TreeProofs HierEvent HierMain HierOrder P_Hard P_Hier SpecPart Partition PartProofs P_Part.

(** Particle [i] is the particle at record [row], or descends from it. *)
Definition stems (es : edges) (row i : nat) : Prop := i = row \/ descends es row i.

Lemma or_path i : forall p m m', (forall q a ks, at_path m q = Some (MGrp a ks) -> a = "or"%string) -> at_path m p = Some m' -> true_at i m' -> true_at i m.
Proof.
  induction p as [|k r IH]; intros m m' HO HP HT; cbn in HP; [injection HP as ->; exact HT|].
  destruct m as [|a ks]; [discriminate|]. destruct (dget k ks) as [c|] eqn:E; [|discriminate].
  pose proof (HO [] a ks eq_refl) as ->. eapply T_or; [left; reflexivity | apply dget_In; exact E|]. eapply IH; [|exact HP|exact HT].
  intros q a' ks' Hq. apply (HO (k :: q) a' ks'). cbn. rewrite E. exact Hq.
Qed.

Section Pipeline.
  Context {P D : Type} (dist : P -> P -> D) (lt : D -> D -> bool).

  Theorem C194_partitioned_hierarchy : forall name ev n depth desc tree (pmu : list P),
    let link := closest (anc_ev ev) in
    let key i := nth i (dkeys desc) ""%string in
    SpecHard.event_ok n ev -> (forall z, has_colon (name z) = false) -> (forall z, name z <> "latent"%string) -> has_intermediate ev ->
    hard_descendants name ev None false true = Ok (MGrp "or" desc) ->
    length (hard_rows ev) <= depth -> hierarchy name depth ev None = Ok tree ->
    weak_order lt -> SpecPart.event_ok n (e_edges ev) (e_status ev) (e_final ev) pmu ->
    (exists r, root link r) ->
    exists tree', partition_descendants dist lt (e_edges ev) (e_status ev) (e_final ev) pmu tree = Ok tree' /\
      (* the names and the nesting stay *)
      (forall path, (exists m, at_path tree path = Some m) -> exists m', at_path tree' path = Some m') /\
      (* the mask of a parton without children, in an event recorded in time order where the parton precedes hadronisation *)
      forall l row, chain link l -> (forall c, ~ link (last l 0) c) -> nth_error (hard_rows ev) (last l 0) = Some row ->
        (forall i, descends (e_edges ev) row i -> row <= i) ->
        (forall a b, nth_error (e_edges ev) row = Some (a, b) -> ~ hadron_vertex (e_edges ev) (e_status ev) a) ->
        exists d', at_path tree' (map key l) = Some (MArr d') /\ length d' = n /\
          forall v i, hadron_vertex (e_edges ev) (e_status ev) v -> final_desc (e_edges ev) (e_final ev) v i ->
            (* hadrons of a vertex fed by the parton: decided by the nearest particle ending there *)
            (forall e, nearest dist lt (e_edges ev) pmu v i e -> (exists e0, incident (e_edges ev) v e0 /\ stems (e_edges ev) row e0) ->
               (nth_error d' i = Some true <-> stems (e_edges ev) row e)) /\
            (* other hadrons keep their place *)
            ((forall e0, incident (e_edges ev) v e0 -> ~ stems (e_edges ev) row e0) ->
               nth_error d' i = Some true -> stems (e_edges ev) row i \/ exists a b, nth_error (e_edges ev) row = Some (a, b) /\ sole_entry (e_edges ev) a i).
  Proof.
    intros name ev n depth desc tree pmu link key Hok Hn Hl Hi Hd HF HT HW HE (r0 & Hr0).
    destruct (C45_tree name ev n depth desc tree Hok Hn Hl Hi Hd HF HT) as ((rs & kids & _ & HR & -> & HK) & HS & HP & _).
    assert (HO : forall q a ks, at_path (MGrp "or" kids) q = Some (MGrp a ks) -> a = "or"%string).
    { intros q a ks Hq. destruct q as [|k q]; [injection Hq as -> _; reflexivity|].
      destruct (HP (k :: q) _ ltac:(discriminate) Hq) as (l & Hc & HC).
      destruct (at_chain name ev n desc Hok Hn Hl Hi Hd depth _ l HF HT Hc) as (m & Hm & HG).
      destruct HC as [HC|[HC (c & HLc)]].
      - rewrite HC in Hq. rewrite Hm in Hq. injection Hq as ->. inversion HG. reflexivity.
      - destruct (node_true name ev n desc Hok Hn Hl Hd _ m HG) as (sub & lat & -> & HL & _); [exists c; exact HLc|].
        rewrite HC, at_path_app in Hq. rewrite Hm in Hq. cbn in Hq. rewrite HL in Hq. discriminate. }
    assert (HB : branches_ok n kids).
    { split.
      - intros ->. apply HR in Hr0. destruct rs; [exact Hr0 | discriminate HK].
      - destruct (main name ev n desc Hok Hn Hl Hi Hd) as (rs' & ms & _ & _ & HM & Hh). rewrite (Hh depth HF) in HT. injection HT as <-.
        destruct (desc_parts name ev n desc Hok Hn Hl Hd) as (E & EN & ND & NL & LN & LD & HD0). 
        intros k c Hin. apply combine_in_map in Hin as (x & Hx & _). destruct (Forall2_combine_In _ _ _ HM) as [_ HM2].
        pose proof (HM2 _ _ Hx) as HG. destruct (masks_all name ev n desc Hok Hn Hl Hd) as [A1 A2]. pose proof Hok as (LE & _).
        apply (grows_agg (dkeys desc) (hrows ev (masks_of desc)) (masks_of desc) (e_edges ev)) in HG; auto; [|congruence]. rewrite LE in HG. exact HG. }
    destruct (C49_partition_descendants dist lt n _ _ _ pmu "or" kids HW HE HB) as (kids' & Er & HX).
    exists (MGrp "or" kids'). split; [exact Er|]. split.
    { intros path (m & Hm). destruct (HX path m Hm) as (m' & Hm' & _). eauto. }
    intros l row Hc HN Hrow HTime HHad.
    pose proof (mask_at name ev n desc Hok Hn Hl Hd _ row Hrow) as Hmask.
    destruct (C48_leaf_exact_partial name ev n depth desc _ l _ _ Hok Hn Hl Hi Hd HF HT Hc HN Hmask) as (b & Hb & LB & HBb).
    destruct (desc_parts name ev n desc Hok Hn Hl Hd) as (E & EN & ND & NL & LN & LD & HD0).
    destruct (HD0 _ row Hrow) as (Ld & Hd0). set (d := nth (last l 0) (masks_of desc) []) in *.
    destruct (HX _ _ Hb) as (m' & Hm' & HR'). destruct m' as [d'|]; [|contradiction].
    assert (HLat : has "latent" (tl (map (fun i => nth i (dkeys desc) ""%string) l)) = false).
    { destruct (has _ _) eqn:F; [|reflexivity]. exfalso. apply existsb_exists in F as (k & F & Ek). apply String.eqb_eq in Ek. subst k.
      assert (F' : In "latent"%string (map (fun i => nth i (dkeys desc) ""%string) l)) by (destruct l; [destruct F | right; exact F]).
      apply in_map_iff in F' as (i & Ei & Hil). apply NL. rewrite <- Ei. apply nth_In. rewrite LN.
      apply (chain_rows name ev n desc Hok Hn Hl Hd) in Hc. apply chain_up in Hc.
      apply (up_lt (dkeys desc) (hrows ev (masks_of desc)) (rows_ok name ev n desc Hok Hn Hl Hd)) in Hc.
      rewrite Forall_forall in Hc. rewrite <- LN. apply Hc. rewrite <- in_rev. exact Hil. }
    rewrite HLat in HR'. destruct HR' as (R1 & R2 & R3). exists d'. split; [exact Hm'|]. split; [congruence|].
    assert (FT : forall f, first_true d f -> f = row).
    { intros f (F1 & F2). apply Hd0 in F1 as [->|F1]; [reflexivity|]. pose proof (HTime f F1). pose proof (F2 row (proj2 (Hd0 row) (or_introl eq_refl))). lia. }
    assert (HBe : forall v e, hadron_vertex (e_edges ev) (e_status ev) v -> incident (e_edges ev) v e -> (nth_error b e = Some true <-> stems (e_edges ev) row e)).
    { intros v e Hv (a & He). rewrite HBb, Hd0. split; [|left; assumption]. intros [H|(f & v' & w & Hf & Ef & (a' & Ea) & _)]; [exact H|]. exfalso.
      rewrite (FT f Hf) in Ef. apply (HHad _ _ Ef). assert (v' = v) by congruence. subst v'. exact Hv. }
    intros v i Hv Hfi. split.
    - intros e Hne (e0 & He0 & Hst).
      assert (Hbe0 : nth_error b e0 = Some true) by (apply (HBe v e0 Hv He0); exact Hst).
      assert (HSel : selected (e_edges ev) (e_status ev) kids v).
      { split; [exact Hv|]. destruct (map (fun i => nth i (dkeys desc) ""%string) l) as [|k p] eqn:El; [discriminate Hb|].
        cbn in Hb. destruct (dget k kids) as [c|] eqn:Ek; [|discriminate]. exists e0, k, c. split; [exact He0|]. split; [apply dget_In; exact Ek|].
        eapply or_path; [|exact Hb | constructor; exact Hbe0]. intros q a ks Hq. apply (HO (k :: q) a ks). cbn. rewrite Ek. exact Hq. }
      rewrite (R2 v i e HSel (ex_intro _ e0 (Logic.conj He0 Hbe0)) Hfi Hne). apply (HBe v e Hv). apply Hne.
    - intros HNo Hi'. rewrite R3 in Hi'.
      + apply HBb in Hi' as [Hi'|(f & v' & w & Hf & Ef & Hs)]; [left; apply Hd0; exact Hi'|]. right. rewrite (FT f Hf) in Ef. exists v', w. split; assumption.
      + intros w Hsw (e0 & He0 & Hb0) Hfw.
        assert (w = v). { destruct HE as (_ & _ & _ & _ & _ & HU & _). apply (HU w v i); auto. apply Hsw. }
        subst w. apply (HNo e0 He0). apply (HBe v e0 Hv He0). exact Hb0.
  Qed.
End Pipeline.
Print Assumptions C194_partitioned_hierarchy.

(** A top decays to a W and a b, which end at one hadronisation vertex with two hadrons. *)
Module PipeDemo.
  Definition ev : event := mkE [(2, 3); (3, 4); (3, 4); (4, 7); (4, 8)]%Z [6; 5; 24; 211; -211]%Z [-22; 23; 23; 83; 84]%Z [false; false; false; true; true].
  Definition pmu : list Z := [0; 10; 20; 12; 19]%Z.
  Definition dst (a b : Z) := Z.abs (a - b).
  Definition desc : list (string * mask) :=
    [("t", MArr [true; true; true; true; true]); ("b", MArr [false; true; false; true; true]); ("W+", MArr [false; false; true; true; true])]%string.
  Example desc_ok : hard_descendants demo_name ev None false true = Ok (MGrp "or" desc).
  Proof. vm_compute. reflexivity. Qed.
  Example run : (t <- hierarchy demo_name 3 ev None ;; partition_descendants dst Z.ltb (e_edges ev) (e_status ev) (e_final ev) pmu t) =
    Ok (MGrp "or" [("t", MGrp "or" [("b", MArr [true; true; false; true; false]); ("W+", MArr [true; false; true; false; true]);
                                    ("latent", MArr [false; false; false; false; false])])])%string.
  Proof. vm_compute. reflexivity. Qed.
  Lemma hv v : hadron_vertex (e_edges ev) (e_status ev) v -> v = 4%Z.
  Proof.
    intros (i & w & s & A & B & C). do 5 (destruct i as [|i]; [cbn in A, B; injection A as <- <-; injection B as <-; try reflexivity; exfalso; revert C; cbn; lia|]). destruct i; discriminate.
  Qed.
  Lemma ev_ok : SpecHard.event_ok 5 ev.
  Proof. repeat split; repeat constructor; unfold fits16, fits32; cbn; lia. Qed.
  Lemma part_ok : SpecPart.event_ok 5 (e_edges ev) (e_status ev) (e_final ev) pmu.
  Proof.
    repeat split; try reflexivity.
    - repeat constructor; unfold fits16; lia.
    - intros v w i A B _ _. apply hv in A, B. congruence.
    - intros v i A F (a & H). apply hv in A. subst v. do 5 (destruct i as [|i]; [cbn in *; congruence|]). destruct i; discriminate.
  Qed.
  (** Every hypothesis of the theorem holds here, for the leaf of the b quark. *)
  Example C194_case : SpecHard.event_ok 5 ev /\ has_intermediate ev /\ weak_order Z.ltb /\
    SpecPart.event_ok 5 (e_edges ev) (e_status ev) (e_final ev) pmu /\ chain (closest (anc_ev ev)) [0; 1] /\
    (forall c, ~ closest (anc_ev ev) 1 c) /\ nth_error (hard_rows ev) 1 = Some 1 /\
    (forall i, descends (e_edges ev) 1 i -> 1 <= i) /\
    (forall a b, nth_error (e_edges ev) 1 = Some (a, b) -> ~ hadron_vertex (e_edges ev) (e_status ev) a) /\
    hadron_vertex (e_edges ev) (e_status ev) 4%Z /\ final_desc (e_edges ev) (e_final ev) 4%Z 3.
  Proof.
    pose proof (rows_link demo_name ev 5 desc ev_ok demo_name_ok demo_name_latent desc_ok) as RL.
    set (rows := hrows ev (masks_of desc)) in *.
    assert (ER : rows = [[true; true; true]; [false; true; false]; [false; false; true]]) by reflexivity.
    assert (SQ : square 3 rows) by (rewrite ER; split; [reflexivity | repeat constructor]).
    assert (CH : forall i c, In c (child_ix rows i) <-> closest (anc_of rows) i c) by (intros i c; apply (child_ix_ok _ rows i SQ)).
    assert (C0 : child_ix rows 0 = [1; 2]) by reflexivity. assert (C1 : child_ix rows 1 = []) by reflexivity.
    assert (C2 : child_ix rows 2 = []) by reflexivity.
    assert (LT : forall i c, closest (anc_of rows) i c -> i < 3) by (intros i c [[_ K] _]; exact (proj1 (entry_lt _ _ _ _ _ SQ K))).
    split; [exact ev_ok|]. split; [exists (-22)%Z; split; [cbn; tauto | reflexivity]|]. split; [exact P_Part.Demo.order_fine|]. split; [exact part_ok|].
    split.
    { exists 0. split; [split|].
      - exists 1. apply RL, CH. rewrite C0. left; reflexivity.
      - intros p Hp. apply RL in Hp. pose proof (LT _ _ Hp). apply CH in Hp. destruct p as [|[|[|p]]]; [rewrite C0 in Hp | rewrite C1 in Hp | rewrite C2 in Hp | lia]; cbn in Hp; intuition lia.
      - apply (D_cons _ 0 1 [1]); [apply RL, CH; rewrite C0; left; reflexivity | constructor]. }
    split; [intros c Hc; apply RL, CH in Hc; rewrite C1 in Hc; exact Hc|].
    split; [reflexivity|]. split.
    { intros i (a & b & c & d & H1 & H2 & H3). destruct i; [|lia]. cbn in H1, H2. injection H1 as <- <-. injection H2 as <- <-.
      destruct H3 as [[_ H3]|[H3 _]]; [|exfalso; apply H3; exists 7%Z; cbn; tauto]. exfalso.
      assert (Q : forall x y, reach (e_edges ev) x y -> (4 <= x)%Z -> (4 <= y)%Z).
      { intros x y HR Hx. induction HR as [|a b HR IH Hin]; [exact Hx|]. cbn in Hin.
        decompose [or] Hin; try contradiction; match goal with H : (_, _) = (_, _) |- _ => injection H as <- <- end; lia. }
      pose proof (Q _ _ H3). lia. }
    split; [intros a b E Hv; cbn in E; injection E as <- <-; apply hv in Hv; discriminate|].
    split; [exists 3, 7%Z, 83%Z; repeat split; cbn; lia|].
    split; [reflexivity|]. exists 4%Z, 7%Z. split; [reflexivity | constructor].
  Qed.
End PipeDemo.
