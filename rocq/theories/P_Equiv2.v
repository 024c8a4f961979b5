(** C208-C210: the order of the particle records carries no meaning for the partition, the hard partons' descendants and the nesting of the hierarchy. *)
From Coq Require Import Classical Permutation.
From Verif Require Import Prelude Dict Keys MaskTypes SpecMask Mask MaskProofs SpecAdj SpecArray SpecPart Arrays ArraysProofs Adjacency Descend DescendProofs Hierarchy Partition PartProofs P_Part P_Equiv.
From Verif Require Import SpecReorder.

Lemma f2_l {A B} (Q : A -> B -> Prop) (l : list (string * A)) l' : Forall2 (fun p q => fst p = fst q /\ Q (snd p) (snd q)) l l' -> forall k v, In (k, v) l -> exists v', In (k, v') l' /\ Q v v'.
Proof.
  induction 1 as [|p q r r' (E & H) _ IH]; intros k v []; [subst p; destruct q as (k' & v'); cbn in *; subst k'; exists v'; split; [left; reflexivity|exact H]|].
  destruct (IH k v) as (v' & I & Hv); [assumption|]. exists v'. split; [right; exact I|exact Hv].
Qed.
Lemma f2_r {A B} (Q : A -> B -> Prop) (l : list (string * A)) l' : Forall2 (fun p q => fst p = fst q /\ Q (snd p) (snd q)) l l' -> forall k v', In (k, v') l' -> exists v, In (k, v) l /\ Q v v'.
Proof.
  induction 1 as [|p q r r' (E & H) _ IH]; intros k v []; [subst q; destruct p as (k' & v'); cbn in *; subst k'; exists v'; split; [left; reflexivity|exact H]|].
  destruct (IH k v) as (v' & I & Hv); [assumption|]. exists v'. split; [right; exact I|exact Hv].
Qed.

Section Reordering.
  Variables (n : nat) (ps : list nat).
  Hypothesis HP : Permutation ps (seq 0 n).
  Lemma lenps : length ps = n. Proof using HP. rewrite (Permutation_length HP). apply seq_length. Qed.
  Lemma ps_lt j i : nth_error ps j = Some i -> i < n. Proof using HP. intros H. apply nth_error_In, (Permutation_in _ HP), in_seq in H. lia. Qed.
  Lemma ps_has i : i < n -> exists j, nth_error ps j = Some i. Proof using HP. intros H. apply In_nth_error, (Permutation_in _ (Permutation_sym HP)), in_seq. lia. Qed.
  Lemma ps_of j : j < n -> exists i, nth_error ps j = Some i. Proof using HP. intros H. destruct (nth_error ps j) eqn:E; [eauto|]. apply nth_error_None in E. rewrite lenps in E. lia. Qed.
  Lemma ps_inj j j' i : nth_error ps j = Some i -> nth_error ps j' = Some i -> j = j'.
  Proof using HP.
    intros H H'. assert (ND : NoDup ps) by (eapply Permutation_NoDup; [apply Permutation_sym, HP | apply seq_NoDup]).
    apply (proj1 (NoDup_nth_error ps) ND); [apply nth_error_Some; congruence | congruence].
  Qed.
  Lemma re_eq {A} (l l' : list A) j i : reorders ps l l' -> nth_error ps j = Some i -> nth_error l' j = nth_error l i. Proof using. intros (_ & H) E. apply H, E. Qed.
  Lemma re_len {A} (l l' : list A) : reorders ps l l' -> length l' = n. Proof using HP. intros (L & _). rewrite L. apply lenps. Qed.
  (** Exists a record / exists a reordered record. *)
  Lemma re_ex (Q : nat -> nat -> Prop) (U V : nat -> Prop) : (forall j i, nth_error ps j = Some i -> (U i <-> V j)) -> (forall i, U i -> i < n) -> (forall j, V j -> j < n) -> (exists i, U i) <-> (exists j, V j).
  Proof using HP.
    intros H HU HV. split.
    - intros (i & Hi). destruct (ps_has i (HU i Hi)) as (j & Ej). exists j. apply (H j i Ej). exact Hi.
    - intros (j & Hj). destruct (ps_of j (HV j Hj)) as (i & Ei). exists i. apply (H j i Ei). exact Hj.
  Qed.
  Lemma re_true j i : nth_error ps j = Some i -> forall m m', reordered ps m m' -> (true_at i m <-> true_at j m').
  Proof using.
    intros E m. induction m as [d|a kids IH] using mask_ind'; intros m' H; inversion H as [? d' HD|? ? kids' HK]; subst.
    - split; intros T; inversion T; subst; constructor; [rewrite (re_eq _ _ _ _ HD E) | rewrite <- (re_eq _ _ _ _ HD E)]; assumption.
    - assert (K : Forall2 (fun p q => fst p = fst q /\ (true_at i (snd p) <-> true_at j (snd q))) kids kids').
      { clear H. revert kids' HK. induction IH as [|p r Hp _ IHr]; intros kids' HK; inversion HK as [|? q ? ? (K1 & K2)]; subst; constructor; [split; [exact K1|apply Hp; exact K2] | apply IHr; assumption]. }
      clear IH HK H. pose proof (f2_l (fun x y => true_at i x <-> true_at j y) _ _ K) as K1. pose proof (f2_r (fun x y => true_at i x <-> true_at j y) _ _ K) as K2.
      split; intros T; inversion T; subst.
      + apply T_and; [assumption|]. intros k v Hin. destruct (K2 k v Hin) as (v0 & I0 & E0). apply E0. eauto.
      + match goal with Q : In (?k, ?v) kids |- _ => destruct (K1 k v Q) as (v0 & I0 & E0) end. eapply T_or; [assumption | exact I0 | apply E0; assumption].
      + apply T_and; [assumption|]. intros k v Hin. destruct (K1 k v Hin) as (v0 & I0 & E0). apply E0. eauto.
      + match goal with Q : In (?k, ?v) kids' |- _ => destruct (K2 k v Q) as (v0 & I0 & E0) end. eapply T_or; [assumption | exact I0 | apply E0; assumption].
  Qed.
  Lemma re_agg : forall m m', reordered ps m m' -> aggregable n m -> aggregable n m'.
  Proof using HP.
    intros m. induction m as [d|a kids IH] using mask_ind'; intros m' H HA; inversion H as [? d' HD|? ? kids' HK].
    - constructor. apply (re_len d d' HD).
    - inversion HA as [|? ? HM HN HC]. subst. constructor; [assumption | intros ->; inversion HK; subst; contradiction|].
      assert (K : Forall2 (fun p q => fst p = fst q /\ (aggregable n (snd p) -> aggregable n (snd q))) kids kids').
      { clear - IH HK. revert kids' HK. induction IH as [|p r Hp _ IHr]; intros kids' HK; inversion HK as [|? q ? ? (K1 & K2)]; subst; constructor; [split; [exact K1|apply Hp; exact K2] | apply IHr; assumption]. }
      intros k v Hin. destruct (f2_r (fun x y => aggregable n x -> aggregable n y) _ _ K k v Hin) as (v0 & I0 & Q). apply Q. eapply HC, I0.
  Qed.
  Variables (es es' : edges).
  Hypotheses (Len : length es = n) (HE : reorders ps es es').
  Lemma HPe : Permutation ps (seq 0 (length es)). Proof using HP Len. rewrite Len. exact HP. Qed.
  Lemma re_inc v j i : nth_error ps j = Some i -> (incident es v i <-> incident es' v j).
  Proof using HE. intros E. unfold incident. rewrite (re_eq _ _ _ _ HE E). reflexivity. Qed.
  Lemma inc_lt v i : incident es v i -> i < n. Proof using Len. intros (a & H). rewrite <- Len. apply nth_error_Some. congruence. Qed.
  Lemma inc_lt' v j : incident es' v j -> j < n. Proof using HP HE. intros (a & H). rewrite <- (re_len es es' HE). apply nth_error_Some. congruence. Qed.
  Lemma re_hv status status' v : length status = n -> reorders ps status status' -> (hadron_vertex es status v <-> hadron_vertex es' status' v).
  Proof using HP Len HE.
    intros L HS. unfold hadron_vertex. apply (re_ex (fun _ _ => True)).
    - intros j i E. rewrite (re_eq _ _ _ _ HE E), (re_eq _ _ _ _ HS E). reflexivity.
    - intros i (w & s & H & _). rewrite <- Len. apply nth_error_Some. congruence.
    - intros j (w & s & H & _). rewrite <- (re_len es es' HE). apply nth_error_Some. congruence.
  Qed.
  Lemma re_fd final final' v j i : reorders ps final final' -> nth_error ps j = Some i -> (final_desc es final v i <-> final_desc es' final' v j).
  Proof using HP Len HE.
    intros HFi E. unfold final_desc. rewrite (re_eq _ _ _ _ HFi E), (re_eq _ _ _ _ HE E).
    split; intros (A & a & b & B & C); (split; [exact A|]); exists a, b; (split; [exact B|]); apply (re_reach ps es es' HPe HE); exact C.
  Qed.
  Lemma re_touches d d' v : reorders ps d d' -> (touches es d v <-> touches es' d' v).
  Proof using HP Len HE.
    intros HD. unfold touches. apply (re_ex (fun _ _ => True)).
    - intros j i E. rewrite (re_inc v j i E), (re_eq _ _ _ _ HD E). reflexivity.
    - intros i (H & _). eapply inc_lt, H.
    - intros j (H & _). eapply inc_lt', H.
  Qed.
  Lemma re_selected status status' kids kids' v : length status = n -> reorders ps status status' -> Forall2 (fun p q => fst p = fst q /\ reordered ps (snd p) (snd q)) kids kids' ->
    (selected es status kids v <-> selected es' status' kids' v).
  Proof using HP Len HE.
    intros L HS HK. unfold selected. rewrite (re_hv status status' v L HS). apply and_iff_compat_l. apply (re_ex (fun _ _ => True)).
    - intros j i E. split; intros (k & c & I & K & T).
      + destruct (f2_l (reordered ps) _ _ HK k c K) as (c' & K' & R). exists k, c'. split; [apply (re_inc v j i E); exact I|]. split; [exact K'|]. apply (re_true j i E c c' R). exact T.
      + destruct (f2_r (reordered ps) _ _ HK k c K) as (c' & K' & R). exists k, c'. split; [apply (re_inc v j i E); exact I|]. split; [exact K'|]. apply (re_true j i E c' c R). exact T.
    - intros i (k & c & I & _). eapply inc_lt, I.
    - intros j (k & c & I & _). eapply inc_lt', I.
  Qed.
  Lemma re_event {P} status status' final final' (pmu pmu' : list P) : reorders ps status status' -> reorders ps final final' -> reorders ps pmu pmu' ->
    event_ok n es status final pmu -> event_ok n es' status' final' pmu'.
  Proof using HP Len HE.
    intros HS HFi HM (_ & L2 & L3 & L4 & S & D & F). split; [apply (re_len _ _ HE)|]. split; [apply (re_len _ _ HS)|]. split; [apply (re_len _ _ HFi)|]. split; [apply (re_len _ _ HM)|]. split; [|split].
    - apply Forall_forall. intros z Hz. rewrite Forall_forall in S. apply S. apply (reorder_In ps status status'); [rewrite L2; exact HP|exact HS|exact Hz].
    - intros v w j Hv Hw A B. assert (Hj : j < n) by (destruct A as (A & _); rewrite <- (re_len _ _ HFi); apply nth_error_Some; congruence). destruct (ps_of j Hj) as (i & E).
      apply (D v w i); [apply (re_hv status status' v L2 HS); exact Hv | apply (re_hv status status' w L2 HS); exact Hw | apply (re_fd final final' v j i HFi E); exact A | apply (re_fd final final' w j i HFi E); exact B].
    - intros v j Hv A I. assert (Hj : j < n) by (rewrite <- (re_len _ _ HFi); apply nth_error_Some; congruence). destruct (ps_of j Hj) as (i & E).
      apply (F v i); [apply (re_hv status status' v L2 HS); exact Hv | rewrite <- (re_eq _ _ _ _ HFi E); exact A | apply (re_inc v j i E); exact I].
  Qed.
  Lemma re_nearest {P D} (dist : P -> P -> D) lt final (pmu pmu' : list P) v i j k l : length pmu = n -> reorders ps pmu pmu' ->
    weak_order lt -> final_desc es final v i -> no_ties dist lt es final pmu v -> nth_error ps j = Some i -> nth_error ps l = Some k -> nearest dist lt es pmu v i k -> nearest dist lt es' pmu' v j l.
  Proof using HP Len HE.
    intros L HM (W1 & W2 & _) FD NT Ej El (I & pe & pi & Ek & Ei & H). split; [apply (re_inc v l k El); exact I|]. exists pe, pi. rewrite (re_eq _ _ _ _ HM Ej), (re_eq _ _ _ _ HM El). split; [exact Ek|]. split; [exact Ei|].
    intros l' p' I' Ep'. destruct (ps_of l' (inc_lt' v l' I')) as (k' & El'). apply (re_inc v l' k' El') in I'. rewrite (re_eq _ _ _ _ HM El') in Ep'. destruct (H k' p' I' Ep') as (H1 & _). split; [exact H1|].
    intros Hlt. assert (k <> k') by (intros ->; pose proof (ps_inj _ _ _ El El'); lia).
    destruct (NT i k k' pe p' pi FD I I') as [|X]; auto. congruence.
  Qed.
End Reordering.

Lemma lw_re ps (R R' : list bool -> list bool -> Prop) : (forall d d' a b, reorders ps d d' -> R d a -> R' d' b -> reorders ps a b) ->
  forall m m' x y, reordered ps m m' -> lw R m x -> lw R' m' y -> reordered ps x y.
Proof.
  intros HR m. induction m as [d|a kids IH] using mask_ind'; intros m' [x|ax kx] [y|ay ky] H Hx Hy; inversion H as [? d' HD|? ? kids' HK]; subst; try contradiction.
  - constructor. eapply HR; eassumption.
  - apply lw_grp in Hx as (<- & Hx). apply lw_grp in Hy as (<- & Hy). constructor. clear H. revert kids' kx ky HK Hx Hy.
    induction IH as [|p r Hp _ IHr]; intros kids' kx ky HK Hx Hy; inversion HK as [|? q ? ? (K1 & K2)]; subst; inversion Hx as [|? p1 ? ? (X1 & X2)]; subst; inversion Hy as [|? q1 ? ? (Y1 & Y2)]; subst; constructor; [|eapply IHr; eassumption].
    split; [congruence|]. rewrite <- K1 in Y2. destruct (String.eqb (fst p) "latent"); [rewrite <- X2, <- Y2; exact K2|]. eapply Hp; eassumption.
Qed.

(** C208: partitioning reordered records is reordering the partition, if no two partons at a vertex are equally far from a hadron. *)
Theorem C208_partition : forall P D (dist : P -> P -> D) lt n ps es es' status status' final final' (pmu pmu' : list P) hier hier',
  weak_order lt -> event_ok n es status final pmu -> (exists agg kids, hier = MGrp agg kids /\ branches_ok n kids) ->
  (forall v, hadron_vertex es status v -> no_ties dist lt es final pmu v) ->
  Permutation ps (seq 0 n) -> reorders ps es es' -> reorders ps status status' -> reorders ps final final' -> reorders ps pmu pmu' -> reordered ps hier hier' ->
  exists h h', partition_descendants dist lt es status final pmu hier = Ok h /\ partition_descendants dist lt es' status' final' pmu' hier' = Ok h' /\ reordered ps h h'.
Proof.
  intros P D dist lt n ps es es' status status' final final' pmu pmu' hier hier' HW HE (agg & kids & -> & Hne & Hag) NT HP RE RS RF RM RH. inversion RH as [|? ? kids' HK]; subst.
  pose proof HE as (L1 & L2 & L3 & L4 & HS & HD & HFi). pose proof (re_event n ps HP es es' L1 RE status status' final final' pmu pmu' RS RF RM HE) as HE'.
  pose proof HE' as (L1' & L2' & L3' & L4' & HS' & HD' & HFi').
  destruct (partition_ok dist lt HW n es status final pmu L1 L2 L3 L4 HS HD HFi agg kids Hne Hag) as (k1 & E1 & T1).
  assert (Hne' : kids' <> []) by (intros ->; inversion HK; subst; contradiction).
  assert (Hag' : forall k c, In (k, c) kids' -> aggregable n c). { intros k c Hin. destruct (f2_r (reordered ps) _ _ HK k c Hin) as (c0 & I0 & R). eapply re_agg; [exact HP | exact R | eapply Hag, I0]. }
  destruct (partition_ok dist lt HW n es' status' final' pmu' L1' L2' L3' L4' HS' HD' HFi' agg kids' Hne' Hag') as (k1' & E1' & T1').
  exists (MGrp agg k1), (MGrp agg k1'). split; [exact E1|]. split; [exact E1'|]. constructor.
  assert (STEP : forall d d' a b, reorders ps d d' -> Inv dist lt n es final pmu (selected es status kids) d a -> Inv dist lt n es' final' pmu' (selected es' status' kids') d' b -> reorders ps a b).
  { intros d d' a b RD (Ld & La & A1 & A2) (Ld' & Lb & B1 & B2). split; [rewrite Lb; apply RD|]. intros j i Ej. pose proof (ps_lt n ps HP j i Ej) as Hi.
    destruct (classic (exists v, selected es status kids v /\ touches es d v /\ final_desc es final v i)) as [(v & S & T & Fd)|N].
    - destruct (C49_nearest_exists dist lt n es status final pmu v i HW HE) as (e & Ne & _); [apply S | destruct T as (e & I & _); eauto | exact Fd |].
      destruct (ps_has n ps HP e) as (e' & Ee); [eapply (inc_lt n es L1), Ne|].
      pose proof (re_nearest n ps HP es es' L1 RE dist lt final pmu pmu' v i j e e' L4 RM HW Fd (NT v (proj1 S)) Ej Ee Ne) as Ne'.
      assert (X : nth_error b j = Some true <-> nth_error a i = Some true).
      { rewrite (A1 v i e S T Fd Ne). rewrite (B1 v j e'); [rewrite (re_eq ps d d' e' e RD Ee); reflexivity| | | |exact Ne'].
        - apply (re_selected n ps HP es es' L1 RE status status' kids kids' v L2 RS HK). exact S.
        - apply (re_touches n ps HP es es' L1 RE d d' v RD). exact T.
        - apply (re_fd n ps HP es es' L1 RE final final' v j i RF Ej). exact Fd. }
      assert (Ha : i < length a) by congruence. assert (Hb : j < length b) by (rewrite Lb, Ld', <- (lenps n ps HP); apply nth_error_Some; congruence).
      destruct (nth_error a i) as [x|] eqn:Ex; [|apply nth_error_None in Ex; lia]. destruct (nth_error b j) as [y|] eqn:Ey; [|apply nth_error_None in Ey; lia].
      f_equal. destruct x, y; try reflexivity; [symmetry|]; [assert (Some false = Some true) by (apply X; reflexivity) | assert (Some false = Some true) by (apply X; reflexivity)]; discriminate.
    - rewrite A2, B2; [apply (re_eq ps d d' j i RD Ej)| |].
      + intros v S T Fd. apply N. exists v. split; [apply (re_selected n ps HP es es' L1 RE status status' kids kids' v L2 RS HK); exact S|].
        split; [apply (re_touches n ps HP es es' L1 RE d d' v RD); exact T | apply (re_fd n ps HP es es' L1 RE final final' v j i RF Ej); exact Fd].
      + intros v S T Fd. apply N. exists v. auto. }
  unfold top in *. clear - T1 T1' HK STEP. revert STEP. generalize (Inv dist lt n es final pmu (selected es status kids)) (Inv dist lt n es' final' pmu' (selected es' status' kids')) T1 T1'. clear T1 T1'.
  intros Ra Rb T1 T2 STEP. revert k1 k1' T1 T2. induction HK as [|p q r r' (E & H) _ IH]; intros k1 k1' T1 T2; inversion T1 as [|? p1 ? r1 (X1 & X2)]; inversion T2 as [|? q1 ? r2 (Y1 & Y2)]; subst; constructor; [|apply IH; assumption].
  split; [congruence|]. eapply lw_re; eassumption.
Qed.

(** The hypotheses are met by P_Part's event with its two partons and its two hadrons swapped. *)
Example C208_case : let ps := [1; 0; 3; 2; 4] in
  weak_order Z.ltb /\ event_ok 5 Demo.es Demo.status Demo.final Demo.pmu /\ branches_ok 5 Demo.kids /\
  (forall v, hadron_vertex Demo.es Demo.status v -> no_ties Demo.dst Z.ltb Demo.es Demo.final Demo.pmu v) /\ Permutation ps (seq 0 5) /\
  exists es' status' final' pmu' hier', reorders ps Demo.es es' /\ reorders ps Demo.status status' /\ reorders ps Demo.final final' /\ reorders ps Demo.pmu pmu' /\ reordered ps (MGrp "or" Demo.kids) hier' /\
    partition_descendants Demo.dst Z.ltb es' status' final' pmu' hier' =
    Ok (MGrp "or" [("a", MArr [false; true; false; true; true]);
     ("t", MGrp "or" [("b", MArr [true; false; true; false; false]); ("latent", MArr [false; false; true; true; false])])])%string.
Proof.
  cbv zeta. split; [exact Demo.order_fine|]. split; [exact Demo.event_fine|]. split; [exact Demo.branches_fine|]. split.
  { intros v Hv. apply Demo.hv in Hv. subst v. intros i k k' p p' h (Fi & Di & _) (a & Hk) (a' & Hk') NE Hp Hp' Hh.
    assert (K : forall k a, nth_error Demo.es k = Some (a, 1%Z) -> k = 0 \/ k = 1). { clear. intros k a H. do 5 (destruct k as [|k]; [cbn in H; try discriminate; auto|]). destruct k; discriminate. }
    assert (I : i = 2 \/ i = 3 \/ i = 4). { do 5 (destruct i as [|i]; [cbn in Fi; try discriminate; auto|]). destruct i; discriminate. }
    destruct (K k a Hk) as [-> | ->], (K k' a' Hk') as [-> | ->]; try congruence; destruct I as [-> | [-> | ->]]; cbn in Hp, Hp', Hh; injection Hp as <-; injection Hp' as <-; injection Hh as <-; cbn; auto. }
  split; [apply NoDup_Permutation; [repeat constructor; cbn; intuition lia | apply seq_NoDup | cbn; intuition lia]|].
  assert (RR : forall A (l : list A) a b c d e, l = [a; b; c; d; e] -> reorders [1; 0; 3; 2; 4] l [b; a; d; c; e]).
  { intros A l a b c d e ->. split; [reflexivity|]. intros j i E. do 5 (destruct j as [|j]; [cbn in E; injection E as <-; reflexivity|]). destruct j; discriminate. }
  do 4 eexists. exists (MGrp "or" [("a", MArr [false; true; true; true; true]); ("t", MGrp "or" [("b", MArr [true; false; true; true; false]); ("latent", MArr [false; false; true; true; false])])]%string).
  split; [apply RR; reflexivity|]. split; [apply RR; reflexivity|]. split; [apply RR; reflexivity|]. split; [apply RR; reflexivity|].
  split; [|vm_compute; reflexivity].
  constructor. constructor; [split; [reflexivity|constructor; apply RR; reflexivity]|]. constructor; [|constructor]. split; [reflexivity|].
  constructor. constructor; [split; [reflexivity|constructor; apply RR; reflexivity]|]. constructor; [|constructor]. split; [reflexivity|constructor; apply RR; reflexivity].
Qed.

Print Assumptions C208_partition.
