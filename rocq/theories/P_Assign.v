(** C55, C66 (assignment cost), C67 (arg_closest), C91, C92, C95, C96. *)
From Verif Require Import Prelude Keys SpecReal SpecDist SpecAssign RealBase Kinem KinemProofs Par DeltaR DeltaRProofs P_Kinem P_DeltaR Assign AssignProofs.
From Coq Require Import Permutation Sorted.
Open Scope R_scope.

(** The caches, if filled, hold the rapidities; two objects never share an array. *)
Definition caches_ok (same : bool) (focus cand : list mom) (s : rapstate) : Prop :=
  (forall a, rcand s = Some a -> nth_error (rheap s) a = Some (map (rapidity ZERO_TOL) cand)) /\
  (same = false -> forall a, rfocus s = Some a -> nth_error (rheap s) a = Some (map (rapidity ZERO_TOL) focus) /\ rcand s <> Some a).

Lemma read_rap_ok c l h a h' : read_rap c l h = (a, h') ->
  (forall x, c = Some x -> nth_error h x = Some (map (rapidity ZERO_TOL) l)) ->
  nth_error h' a = Some (map (rapidity ZERO_TOL) l) /\ (forall x v, nth_error h x = Some v -> nth_error h' x = Some v) /\
  (c = Some a \/ (c = None /\ nth_error h a = None)).
Proof.
  unfold read_rap. destruct c as [x|]; intros E H; injection E as <- <-.
  - split; [apply H; reflexivity|]. split; [auto|left; reflexivity].
  - split; [rewrite nth_error_app2, Nat.sub_diag by lia; reflexivity|]. split; [|right; split; [reflexivity|apply nth_error_None; lia]].
    intros x v Hx. rewrite nth_error_app1; [exact Hx|]. apply nth_error_Some. congruence.
Qed.
Lemma nth_error_nth_list {A} (h : list (list A)) a v : nth_error h a = Some v -> nth a h [] = v.
Proof. intros H. erewrite nth_error_nth; eauto. Qed.

Lemma dist_at_entry l r i j p q : nth_error l i = Some p -> nth_error r j = Some q ->
  dist_at (map (rapidity ZERO_TOL) l) (map (rapidity ZERO_TOL) r) l r i j = delta_entry (rapidity ZERO_TOL) p q.
Proof.
  intros Hp Hq. unfold dist_at, nthe. rewrite (nthm_some _ _ _ Hp), (nthm_some _ _ _ Hq).
  erewrite !(nth_error_nth (map _ _)); [reflexivity| |]; rewrite nth_error_map'; [rewrite Hq|rewrite Hp]; reflexivity.
Qed.

(** What a call amounts to when the caches are right. *)
Lemma arg_closest_inv deg same focus cand s out s' : (same = true -> cand = focus) -> caches_ok same focus cand s ->
  arg_closest deg same focus cand s out s' ->
  exists ac h cf, nth_error h ac = Some (map (rapidity ZERO_TOL) cand) /\
    (same = false -> exists af, cf = Some af /\ nth_error h af = Some (map (rapidity ZERO_TOL) focus) /\ af <> ac) /\
    (forall x v, nth_error (rheap s) x = Some v -> nth_error h x = Some v) /\
    (forall a, rcand s = Some a -> ac = a) /\
    let h3 := set_nth h ac (map (fun p => Fin (pt p)) cand) in
    (if Req_EM_T (np_var (map pt cand)) 0 then out = Err ZeroDivisionError /\ s' = RapState h3 cf (Some ac)
     else s' = RapState h3 cf None /\
       exists r, linear_sum_assignment (length focus) (length cand)
         (cost_matrix deg (map (rapidity ZERO_TOL) focus) (map (rapidity ZERO_TOL) cand) focus cand) r /\ out = (a <- r ;; Ok (map snd a))).
Proof.
  intros HS (HC & HF) H. unfold arg_closest in H. destruct same.
  - specialize (HS eq_refl). subst cand. destruct (read_rap (rcand s) focus (rheap s)) as (a, h) eqn:E. cbn [read_rap] in H.
    destruct (read_rap_ok _ _ _ _ _ E HC) as (Ha & Hold & Hc). rewrite (nth_error_nth_list _ _ _ Ha) in H. destruct H as (M & HM & H).
    exists a, h, (rfocus s). split; [exact Ha|]. split; [discriminate|]. split; [exact Hold|].
    split; [intros x Hx; destruct Hc as [Hc|(Hc & _)]; congruence|].
    apply assignment_cost_result in HM. destruct (Req_EM_T (np_var (map pt focus)) 0); rewrite HM in H; exact H.
  - specialize (HF eq_refl). destruct (read_rap (rfocus s) focus (rheap s)) as (af, h1) eqn:E1.
    destruct (read_rap (rcand s) cand h1) as (ac, h2) eqn:E2.
    destruct (read_rap_ok _ _ _ _ _ E1 (fun x Hx => proj1 (HF x Hx))) as (Hf & Hold1 & Hcf).
    destruct (read_rap_ok _ _ _ _ _ E2 (fun x Hx => Hold1 _ _ (HC x Hx))) as (Hc & Hold2 & Hcc).
    pose proof (Hold2 _ _ Hf) as Hf2.
    assert (NE : af <> ac).
    { intros E. subst ac. destruct Hcc as [Hcc|(_ & Hcc)]; [|congruence]. destruct Hcf as [Hcf|(_ & Hcf)].
      - apply (proj2 (HF af Hcf)). exact Hcc.
      - rewrite (HC af Hcc) in Hcf. discriminate. }
    rewrite (nth_error_nth_list _ _ _ Hc), (nth_error_nth_list _ _ _ Hf2) in H. destruct H as (M & HM & H).
    exists ac, h2, (Some af). split; [exact Hc|]. split; [intros _; exists af; auto|]. split; [intros; apply Hold2, Hold1; assumption|].
    split; [intros x Hx; destruct Hcc as [Hcc|(Hcc & _)]; congruence|].
    apply assignment_cost_result in HM. destruct (Req_EM_T (np_var (map pt cand)) 0); rewrite HM in H; exact H.
Qed.
Lemma linear_sum_assignment_exists n1 n2 C : exists r, linear_sum_assignment n1 n2 C r.
Proof.
  unfold linear_sum_assignment. destruct (forallb _ C).
  - destruct (best_matching_exists n1 n2 (fun i j => fval (nth j (nth i C []) NaN))) as (a & Ha). eexists. exists a. split; [exact Ha|reflexivity].
  - eexists. reflexivity.
Qed.

(** ** C55 *)
(** Some execution always exists, from any state. *)
Theorem C55_runs : forall deg same focus cand s, exists out s', arg_closest deg same focus cand s out s'.
Proof.
  intros. unfold arg_closest. destruct (read_rap _ focus _) as (af, h1). destruct (read_rap _ cand _) as (ac, h2).
  destruct (assignment_cost_exists deg (nth af h2 []) (nth ac h2 []) focus cand) as (M & HM). destruct M as [C|e].
  - destruct (linear_sum_assignment_exists (length focus) (length cand) C) as (r & Hr). do 2 eexists. exists (Ok C). split; [exact HM|]. split; [reflexivity|]. exists r. split; [exact Hr|reflexivity].
  - do 2 eexists. exists (Err e). split; [exact HM|]. split; reflexivity.
Qed.

Section Costs.
  Context (deg : nat -> nat -> ext) (focus cand : list mom) (d : nat -> nat -> R).
  Let n1 := length focus.
  Let n2 := length cand.
  Let c (i j : nat) : R :=
    pair_cost (d i j) (variance (map (d i) (seq 0 n2)))
      (sqrt (pt_sq (nth i focus mzero)) - sqrt (pt_sq (nth j cand mzero))) (variance (map (fun q => sqrt (pt_sq q)) cand)).
  Hypothesis dist : forall i j p q, nth_error focus i = Some p -> nth_error cand j = Some q -> delta_entry (rapidity ZERO_TOL) p q = Fin (d i j).
  Hypothesis vpt : variance (map (fun q => sqrt (pt_sq q)) cand) <> 0.
  Hypothesis vdr : forall i, (i < n1)%nat -> variance (map (d i) (seq 0 n2)) <> 0.
  Let C := cost_matrix deg (map (rapidity ZERO_TOL) focus) (map (rapidity ZERO_TOL) cand) focus cand.

  Lemma cost_cell i j : (i < n1)%nat -> (j < n2)%nat -> nth_error (nth i C []) j = Some (Fin (c i j)).
  Proof.
    intros Hi Hj. unfold C, cost_matrix.
    assert (DI : forall k, (k < n2)%nat -> dist_at (map (rapidity ZERO_TOL) focus) (map (rapidity ZERO_TOL) cand) focus cand i k = Fin (d i k)).
    { intros k Hk. destruct (nth_error focus i) as [p|] eqn:Ep; [|apply nth_error_None in Ep; unfold n1 in *; lia].
      destruct (nth_error cand k) as [q|] eqn:Eq; [|apply nth_error_None in Eq; unfold n2 in *; lia].
      rewrite (dist_at_entry _ _ _ _ _ _ Ep Eq). eapply dist; eauto. }
    assert (EV : evar (map (dist_at (map (rapidity ZERO_TOL) focus) (map (rapidity ZERO_TOL) cand) focus cand i) (seq 0 (length cand))) =
                 Fin (variance (map (d i) (seq 0 n2)))).
    { rewrite (map_ext_in _ (fun k => Fin (d i k))) by (intros k Hk; apply in_seq in Hk; apply DI; unfold n2; lia).
      unfold evar. assert (FB : forallb is_fin (map (fun k => Fin (d i k)) (seq 0 (length cand))) = true) by (apply forallb_forall; intros x Hx; apply in_map_iff in Hx as (k & <- & _); reflexivity).
      rewrite FB, map_map. cbn [fval]. rewrite np_var_variance. reflexivity. }
    erewrite (nth_error_nth (map _ (seq 0 (length focus)))); [|rewrite nth_error_map', seq_nth_error; destruct (Nat.ltb_spec i (length focus)); [reflexivity|unfold n1 in *; lia]].
    cbn [Nat.add]. rewrite nth_error_map', seq_nth_error. destruct (Nat.ltb_spec j (length cand)); [|unfold n2 in *; lia]. cbn [Nat.add option_map]. f_equal.
    rewrite EV, DI by exact Hj. unfold cost_entry. destruct (Req_EM_T _ 0) as [E|_]; [exfalso; exact (vdr i Hi E)|]. f_equal.
    unfold c, pair_cost, expm1.
    assert (P1 : nth i (map pt focus) 0 = sqrt (pt_sq (nth i focus mzero))).
    { transitivity (nth i (map pt focus) (pt mzero)); [apply nth_indep; rewrite map_length; exact Hi|]. apply (map_nth pt). }
    assert (P2 : nth j (map pt cand) 0 = sqrt (pt_sq (nth j cand mzero))).
    { transitivity (nth j (map pt cand) (pt mzero)); [apply nth_indep; rewrite map_length; exact Hj|]. apply (map_nth pt). }
    rewrite P1, P2, np_var_variance. change (map pt cand) with (map (fun q => sqrt (pt_sq q)) cand).
    set (V := variance (map (d i) (seq 0 n2))) in *. assert (HV : V <> 0) by (apply vdr; exact Hi).
    set (W := variance _) in *. set (t := sqrt _ - sqrt _).
    replace (- / 2 * (1 / V) * d i j * d i j) with (- (d i j * d i j) / (2 * V)) by (field; exact HV).
    replace (- / 2 * (1 / W) * t * t) with (- (t * t) / (2 * W)) by (field; exact vpt).
    lra.
  Qed.
  Lemma cost_finite : forallb (forallb is_fin) C = true.
  Proof.
    apply forallb_forall. intros row Hr. apply forallb_forall. intros x Hx.
    unfold C, cost_matrix in Hr. apply in_map_iff in Hr as (i & <- & Hi). apply in_seq in Hi.
    apply In_nth_error in Hx as (j & Hx).
    assert (Hj : (j < n2)%nat). { assert (Q : nth_error (map _ (seq 0 (length cand))) j <> None) by (rewrite Hx; discriminate). apply nth_error_Some in Q. rewrite map_length, seq_length in Q. exact Q. }
    pose proof (cost_cell i j ltac:(unfold n1; lia) Hj) as E. unfold C, cost_matrix in E.
    erewrite (nth_error_nth (map _ (seq 0 (length focus)))) in E; [|rewrite nth_error_map', seq_nth_error; destruct (Nat.ltb_spec i (length focus)); [reflexivity|lia]].
    cbn [Nat.add] in E. rewrite Hx in E. injection E as ->. reflexivity.
  Qed.
  Lemma total_cost a : (forall i j, In (i, j) a -> (i < n1 /\ j < n2)%nat) -> total (fun i j => fval (nth j (nth i C []) NaN)) a = total c a.
  Proof.
    intros H. unfold total. apply rsum_map_ext. intros (i, j) Hij. cbn [fst snd]. apply H in Hij as (Hi & Hj).
    erewrite nth_error_nth by (apply cost_cell; assumption). reflexivity.
  Qed.
  Lemma best_cost a : best_matching n1 n2 (fun i j => fval (nth j (nth i C []) NaN)) a -> best_matching n1 n2 c a.
  Proof.
    intros (M & S' & B). split; [exact M|]. split; [exact S'|]. intros b Hb.
    rewrite <- (total_cost a) by apply M. rewrite <- (total_cost b) by apply Hb. apply B, Hb.
  Qed.
End Costs.

(** [out] is the assignment promised: one distinct candidate per focus, cheapest in total. *)
Definition optimal_assignment (focus cand : list mom) (d : nat -> nat -> R) (idxs : list nat) : Prop :=
  let n1 := length focus in let n2 := length cand in
  let ptm := fun (l : list mom) i => sqrt (pt_sq (nth i l mzero)) in
  let c := fun i j => pair_cost (d i j) (variance (map (d i) (seq 0 n2))) (ptm focus i - ptm cand j) (variance (map (fun q => sqrt (pt_sq q)) cand)) in
  length idxs = n1 /\ NoDup idxs /\ (forall j, In j idxs -> (j < n2)%nat) /\
  forall f, injection_below n1 n2 f ->
    rsum (map (fun i => c i (nth i idxs O)) (seq 0 n1)) <= rsum (map (fun i => c i (f i)) (seq 0 n1)).

Theorem C55_assignment : forall deg same focus cand s out s' sm D d,
  (same = true -> cand = focus) -> (sm = true -> cand = focus) -> caches_ok same focus cand s ->
  (length focus <= length cand)%nat ->
  delta_R_call sm false focus cand D ->
  (forall i j, (i < length focus)%nat -> (j < length cand)%nat -> at2 D i j = Some (Fin (d i j))) ->
  variance (map (fun q => sqrt (pt_sq q)) cand) <> 0 ->
  (forall i, (i < length focus)%nat -> variance (map (d i) (seq 0 (length cand))) <> 0) ->
  arg_closest deg same focus cand s out s' ->
  exists idxs, out = Ok idxs /\ optimal_assignment focus cand d idxs /\
    cand_rapidity cand s' = map (rapidity ZERO_TOL) cand.
Proof.
  intros deg same focus cand s out s' sm D d HS HSM HC HN HD Hd VP VD H.
  apply call_result in HD; [|exact HSM]. subst D.
  assert (DI : forall i j p q, nth_error focus i = Some p -> nth_error cand j = Some q -> delta_entry (rapidity ZERO_TOL) p q = Fin (d i j)).
  { intros i j p q Hp Hq. specialize (Hd i j). rewrite delta_R_at, Hp, Hq in Hd. cbn [rap_of] in Hd.
    assert (L1 : (i < length focus)%nat) by (apply nth_error_Some; congruence). assert (L2 : (j < length cand)%nat) by (apply nth_error_Some; congruence).
    specialize (Hd L1 L2). injection Hd as Hd. exact Hd. }
  destruct (arg_closest_inv _ _ _ _ _ _ _ HS HC H) as (ac & h & cf & _ & _ & _ & _ & Q). cbv zeta in Q.
  destruct (Req_EM_T (np_var (map pt cand)) 0) as [E|_]; [exfalso; rewrite np_var_variance in E; exact (VP E)|].
  destruct Q as (-> & r & HL & ->). unfold linear_sum_assignment in HL.
  rewrite (cost_finite deg focus cand d DI VP VD) in HL. destruct HL as (a & HB & ->).
  apply (best_cost deg focus cand d DI VP VD) in HB. cbn [bind].
  exists (map snd a). split; [reflexivity|].
  destruct (best_matching_rows _ _ _ _ HN HB) as (L & ND & RG & EC & MIN). split.
  - split; [exact L|]. split; [exact ND|]. split; [exact RG|]. intros f Hf. eapply Rle_trans; [|exact (MIN f Hf)].
    right. match goal with |- _ = total ?F a => replace (total F a) with (total F (combine (seq 0 (length focus)) (map snd a))) by (rewrite <- EC; reflexivity) end.
    unfold total. rewrite <- L. generalize (map snd a). intros xs.
    set (F := fun i j => pair_cost (d i j) (variance (map (d i) (seq 0 (length cand))))
      (sqrt (pt_sq (nth i focus mzero)) - sqrt (pt_sq (nth j cand mzero))) (variance (map (fun q => sqrt (pt_sq q)) cand))).
    change (rsum (map (fun i => F i (nth i xs O)) (seq 0 (length xs))) = rsum (map (fun p => F (fst p) (snd p)) (combine (seq 0 (length xs)) xs))).
    clearbody F.
    assert (G : forall xs k, map (fun i => F i (nth (i - k) xs O)) (seq k (length xs)) = map (fun p => F (fst p) (snd p)) (combine (seq k (length xs)) xs)).
    { clear. induction xs as [|x xs IH]; intros k; [reflexivity|]. cbn [length seq combine map fst snd]. rewrite Nat.sub_diag. cbn [nth]. f_equal.
      rewrite <- IH. apply map_ext_in. intros i Hi. apply in_seq in Hi. destruct (i - k)%nat as [|m] eqn:Em; [lia|]. replace (i - S k)%nat with m by lia. reflexivity. }
    specialize (G xs O). rewrite <- G. f_equal. apply map_ext. intros i. rewrite Nat.sub_0_r. reflexivity.
  - unfold cand_rapidity. cbn [rcand rheap read_rap]. apply nth_error_nth_list. rewrite nth_error_app2, Nat.sub_diag by lia. reflexivity.
Qed.

Lemma variance_zero l : l <> [] -> (variance l = 0 <-> forall x y, In x l -> In y l -> x = y).
Proof.
  intros Hn. assert (HL : 0 < INR (length l)) by (apply lt_0_INR; destruct l; [contradiction|cbn; lia]).
  unfold variance. set (mu := mean l).
  assert (ES : forall s n, n <> 0 -> (s / n = 0 <-> s = 0)).
  { intros s n N. split; intros E; [|rewrite E; unfold Rdiv; ring]. apply (Rmult_eq_reg_r (/ n)); [|apply Rinv_neq_0_compat, N]. rewrite Rmult_0_l. exact E. }
  assert (SQ : rsum (map (fun x => (x - mu) * (x - mu)) l) = 0 <-> forall x, In x l -> x = mu).
  { assert (G : forall k, 0 <= rsum (map (fun x => (x - mu) * (x - mu)) k) /\ (rsum (map (fun x => (x - mu) * (x - mu)) k) = 0 <-> forall x, In x k -> x = mu)).
    { clearbody mu. clear. intros k. induction k as [|a k (P & IH)]; cbn [map rsum].
      - split; [lra|]. split; [intros _ x []|reflexivity].
      - pose proof (Rle_0_sqr (a - mu)) as A. unfold Rsqr in A. split; [lra|]. split.
        + intros E x [<-|Hx]; [|apply (proj1 IH); [lra|exact Hx]]. assert (Q : Rsqr (a - mu) = 0) by (unfold Rsqr; lra). apply Rsqr_0_uniq in Q. lra.
        + intros H. rewrite (H a (or_introl eq_refl)). rewrite (proj2 IH); [ring|]. intros x Hx. apply H. right; exact Hx. }
    apply G. }
  unfold mean. rewrite map_length, ES by lra. rewrite SQ. split.
  - intros H x y Hx Hy. rewrite (H x Hx), (H y Hy). reflexivity.
  - intros H x Hx. unfold mu, mean. assert (G : forall k, (forall y, In y k -> y = x) -> rsum k = x * INR (length k)).
    { clear. induction k as [|a k IH]; intros H; [cbn; ring|]. cbn [rsum length]. rewrite S_INR, IH by (intros; apply H; right; assumption). rewrite (H a (or_introl eq_refl)). ring. }
    rewrite (G l) by (intros y Hy; apply H; assumption). field. lra.
Qed.

(** Hypotheses of C55 met: one parton, two jets of different pT at different distances. *)
Definition demo_focus : list mom := [Mom 1 0 0 2].
Definition demo_cand : list mom := [Mom 0 2 0 3; Mom 1 0 0 2].
Lemma demo_dphi : delta_phi (Mom 1 0 0 2) (Mom 0 2 0 3) = - (PI / 2).
Proof.
  unfold delta_phi. cbn [px py]. replace (0 * 0 - 1 * 2) with (-2) by ring. replace (1 * 0 + 0 * 2) with 0 by ring.
  unfold atan2. destruct (Rlt_dec 0 0); [lra|]. destruct (Rlt_dec 0 (-2)); [lra|]. destruct (Rlt_dec (-2) 0); lra.
Qed.
Lemma demo_rap p : pz p = 0 -> ZERO_TOL < en p -> rapidity ZERO_TOL p = Fin 0.
Proof.
  intros Hz He. assert (0 <= ZERO_TOL) by (unfold ZERO_TOL; lra). rewrite rapidity_fin; [|assumption|rewrite Hz, Rabs_R0; lra].
  unfold true_rap. rewrite Hz, Rplus_0_r, Rminus_0_r. replace (en p / en p) with 1 by (field; lra). rewrite ln_1. f_equal. ring.
Qed.
Example C55_demo : exists D d, delta_R_call false false demo_focus demo_cand D /\
  (forall i j, (i < 1)%nat -> (j < 2)%nat -> at2 D i j = Some (Fin (d i j))) /\
  variance (map (fun q => sqrt (pt_sq q)) demo_cand) <> 0 /\
  (forall i, (i < 1)%nat -> variance (map (d i) (seq 0 2)) <> 0) /\
  caches_ok false demo_focus demo_cand (RapState [] None None).
Proof.
  destruct (call_exists false false demo_focus demo_cand) as (D & HD). exists D.
  set (d := fun i j : nat => match j with O => PI / 2 | _ => 0 end). exists d. split; [exact HD|].
  apply call_result in HD; [|discriminate]. subst D. cbn [rap_of]. split; [|split; [|split]].
  - intros i j Hi Hj. rewrite delta_R_at. destruct i as [|i]; [|lia]. unfold demo_focus, demo_cand. cbn [nth_error].
    assert (T : ZERO_TOL < 2) by (unfold ZERO_TOL; lra).
    destruct j as [|[|j]]; [| |lia]; cbn [nth_error]; do 2 f_equal; unfold delta_entry; rewrite !demo_rap by (reflexivity || (cbn [en]; lra)); cbn [esub eadd eopp ehypot].
    + rewrite demo_dphi. unfold d. f_equal. replace ((0 + - 0) * (0 + - 0) + - (PI / 2) * - (PI / 2)) with (PI / 2 * (PI / 2)) by ring.
      apply sqrt_square. pose proof PI_RGT_0. lra.
    + rewrite delta_phi_self. unfold d. f_equal. replace ((0 + - 0) * (0 + - 0) + 0 * 0) with 0 by ring. apply sqrt_0.
  - rewrite variance_zero by discriminate. intros H. specialize (H (sqrt (pt_sq (Mom 0 2 0 3))) (sqrt (pt_sq (Mom 1 0 0 2)))).
    unfold demo_cand in H. cbn [map In] in H. specialize (H ltac:(auto) ltac:(auto)). unfold pt_sq in H. cbn [px py] in H.
    replace (0 * 0 + 2 * 2) with (2 * 2) in H by ring. replace (1 * 1 + 0 * 0) with (1 * 1) in H by ring. rewrite !sqrt_square in H by lra. lra.
  - intros i Hi. rewrite variance_zero by discriminate. intros H. specialize (H (PI / 2) 0). cbn [seq map In d] in H. pose proof PI_RGT_0. specialize (H ltac:(auto) ltac:(auto)). lra.
  - split; cbn; [discriminate|]. intros _ a Ha. discriminate.
Qed.

(** ** C66 assignment cost: the schedules of both loops and the initial memory do not matter. *)
Theorem C66_assignment_cost : forall deg y1 y2 l r out out',
  assignment_cost deg y1 y2 l r out -> assignment_cost deg y1 y2 l r out' -> out = out'.
Proof. intros deg y1 y2 l r out out' H H'. rewrite (assignment_cost_result _ _ _ _ _ _ H), (assignment_cost_result _ _ _ _ _ _ H'). reflexivity. Qed.
Theorem C66_assignment_cost_exists : forall deg y1 y2 l r, exists out, assignment_cost deg y1 y2 l r out.
Proof. exact assignment_cost_exists. Qed.

(** ** C67 arg_closest: whatever the kernel and the solver do, the thread setting is restored. *)
Theorem C67_arg_closest : forall A B maxt threads (k : thr A) (post : A -> res B) s, (1 <= s <= maxt)%nat ->
  fst (t_arg_closest maxt threads k post s) = s.
Proof.
  intros A B maxt threads k post s Hs. unfold t_arg_closest, tbind, tret.
  pose proof (proj1 (C67_thread_scope A maxt threads k s Hs)) as E. destruct (thread_scope maxt threads k s) as (s', [x|e]); cbn in *; exact E.
Qed.

(** ** C91 *)
Lemma arg_closest_err deg same focus cand s out s' : arg_closest deg same focus cand s out s' ->
  if Req_EM_T (np_var (map pt cand)) 0 then out = Err ZeroDivisionError else out <> Err ZeroDivisionError.
Proof.
  unfold arg_closest. destruct (read_rap _ focus _) as (af, h1). destruct (read_rap _ cand _) as (ac, h2). intros (M & HM & H).
  apply assignment_cost_result in HM. destruct (Req_EM_T _ 0); subst M; [apply H|]. destruct H as (_ & r & HL & ->). unfold linear_sum_assignment in HL.
  destruct (forallb _ _); [destruct HL as (a & _ & ->); discriminate|subst r; discriminate].
Qed.
Definition same_pt (cand : list mom) : Prop := forall p q, In p cand -> In q cand -> pt_sq p = pt_sq q.
Lemma same_pt_var cand : cand <> [] -> (np_var (map pt cand) = 0 <-> same_pt cand).
Proof.
  intros Hn. rewrite np_var_variance, variance_zero by (intros E; apply map_eq_nil in E; contradiction). split.
  - intros H p q Hp Hq. assert (E : pt p = pt q) by (apply H; apply in_map; assumption).
    unfold pt in E. apply (f_equal (fun x => x * x)) in E. rewrite !sqr_sqrt in E by apply sumsq_pos. exact E.
  - intros H x y Hx Hy. apply in_map_iff in Hx as (p & <- & Hp). apply in_map_iff in Hy as (q & <- & Hq).
    unfold pt. f_equal. exact (H p q Hp Hq).
Qed.
Theorem C91_equal_pt_refuted : forall deg same focus cand s out s', cand <> [] -> same_pt cand ->
  arg_closest deg same focus cand s out s' -> out = Err ZeroDivisionError.
Proof.
  intros deg same focus cand s out s' Hn HP H. apply arg_closest_err in H. destruct (Req_EM_T _ 0) as [|N]; [exact H|].
  exfalso. apply N, same_pt_var; assumption.
Qed.
Example C91_demo : same_pt [Mom 3 4 1 9] /\ same_pt [Mom 3 4 1 9; Mom 5 0 (-2) 9].
Proof. split; intros p q; cbn [In]; intros Hp Hq; repeat (destruct Hp as [<-|Hp] || destruct Hp); repeat (destruct Hq as [<-|Hq] || destruct Hq); unfold pt_sq; cbn [px py]; lra. Qed.
Theorem C91_different_pt_partial : forall deg same focus cand s out s' p q,
  In p cand -> In q cand -> pt_sq p <> pt_sq q -> arg_closest deg same focus cand s out s' -> out <> Err ZeroDivisionError.
Proof.
  intros deg same focus cand s out s' p q Hp Hq N H. apply arg_closest_err in H. destruct (Req_EM_T _ 0) as [E|_]; [|exact H].
  exfalso. apply N. apply same_pt_var in E; [apply E; assumption|]. intros ->. destruct Hp.
Qed.

(** ** C92 *)
Lemma set_nth_same {A} (l : list A) i (v : A) w : nth_error l i = Some w -> nth_error (set_nth l i v) i = Some v.
Proof. intros H. rewrite set_nth_nth, Nat.eqb_refl. match goal with |- match ?x with _ => _ end = _ => change x with (nth_error l i); rewrite H end. reflexivity. Qed.
Lemma set_nth_other {A} (l : list A) i j (v : A) : i <> j -> nth_error (set_nth l i v) j = nth_error l j.
Proof. intros H. rewrite set_nth_nth. destruct (Nat.eqb_spec i j); [contradiction|reflexivity]. Qed.
(** After the raise of C91 every later read returns the transverse momenta. *)
Theorem C92_after_raise_refuted : (forall deg same focus cand s out s', (same = true -> cand = focus) -> caches_ok same focus cand s ->
    cand <> [] -> same_pt cand -> arg_closest deg same focus cand s out s' ->
    out = Err ZeroDivisionError /\ cand_rapidity cand s' = map (fun p => Fin (sqrt (pt_sq p))) cand) /\
  (exists cand, cand <> [] /\ same_pt cand /\ map (fun p => Fin (sqrt (pt_sq p))) cand <> map (rapidity ZERO_TOL) cand).
Proof.
  split.
  - intros deg same focus cand s out s' HS HC Hn HP H. split; [eapply C91_equal_pt_refuted; eauto|].
    destruct (arg_closest_inv _ _ _ _ _ _ _ HS HC H) as (ac & h & cf & Hc & _ & _ & _ & Q). cbv zeta in Q.
    destruct (Req_EM_T _ 0) as [E|N]; [|exfalso; apply N, same_pt_var; assumption]. destruct Q as (_ & ->).
    unfold cand_rapidity. cbn [rcand rheap read_rap]. apply nth_error_nth_list. eapply set_nth_same, Hc.
  - exists [Mom 3 4 0 9]. split; [discriminate|]. split.
    + intros p q [<-|[]] [<-|[]]. reflexivity.
    + cbn [map]. rewrite demo_rap by (reflexivity || (cbn [en]; unfold ZERO_TOL; lra)). unfold pt_sq. cbn [px py]. replace (3 * 3 + 4 * 4) with (5 * 5) by ring. rewrite sqrt_square by lra. intros E. injection E as E. lra.
Qed.
(** After any other outcome both arrays' rapidities read correctly. *)
Theorem C92_otherwise_partial : forall deg same focus cand s out s', (same = true -> cand = focus) -> caches_ok same focus cand s ->
  arg_closest deg same focus cand s out s' -> out <> Err ZeroDivisionError ->
  cand_rapidity cand s' = map (rapidity ZERO_TOL) cand /\ caches_ok same focus cand s'.
Proof.
  intros deg same focus cand s out s' HS HC H HO.
  destruct (arg_closest_inv _ _ _ _ _ _ _ HS HC H) as (ac & h & cf & Hc & Hf & _ & _ & Q). cbv zeta in Q.
  destruct (Req_EM_T _ 0) as [E|N]; [destruct Q as (Q & _); contradiction|]. destruct Q as (-> & _). split.
  - unfold cand_rapidity. cbn [rcand rheap read_rap]. apply nth_error_nth_list. rewrite nth_error_app2, Nat.sub_diag by lia. reflexivity.
  - split; cbn [rcand rheap rfocus]; [discriminate|]. intros ES a Ha. destruct (Hf ES) as (af & -> & Hfo & NE). injection Ha as <-. split; [|discriminate].
    rewrite set_nth_other by (intros E; apply NE; symmetry; exact E). exact Hfo.
Qed.
(** ** C96: an array read from candidate.rapidity before the call *)
Theorem C96_held_array_refuted : forall deg same focus cand s out s' a, (same = true -> cand = focus) -> caches_ok same focus cand s ->
  rcand s = Some a -> arg_closest deg same focus cand s out s' ->
  nth_error (rheap s) a = Some (map (rapidity ZERO_TOL) cand) /\ nth_error (rheap s') a = Some (map (fun p => Fin (sqrt (pt_sq p))) cand).
Proof.
  intros deg same focus cand s out s' a HS HC Ha H. split; [apply HC, Ha|].
  destruct (arg_closest_inv _ _ _ _ _ _ _ HS HC H) as (ac & h & cf & Hc & _ & _ & Hac & Q). rewrite (Hac a Ha) in *. cbv zeta in Q.
  destruct (Req_EM_T _ 0); [destruct Q as (_ & ->)|destruct Q as (-> & _)]; cbn [rheap]; eapply set_nth_same, Hc.
Qed.
Theorem C96_other_arrays_partial : forall deg same focus cand s out s' x v, (same = true -> cand = focus) -> caches_ok same focus cand s ->
  rcand s <> Some x -> nth_error (rheap s) x = Some v -> arg_closest deg same focus cand s out s' -> nth_error (rheap s') x = Some v.
Proof.
  intros deg same focus cand s out s' x v HS HC Hx Hv H.
  assert (NE : forall c l h a h', read_rap c l h = (a, h') -> nth_error h x = Some v -> c <> Some x -> a <> x /\ nth_error h' x = Some v).
  { clear. unfold read_rap. intros [c|] l h a h' E Hv N; injection E as <- <-.
    - split; [congruence|exact Hv].
    - assert (L : (x < length h)%nat) by (apply nth_error_Some; congruence). split; [lia|]. rewrite nth_error_app1 by exact L. exact Hv. }
  assert (NE' : forall c l h a h', read_rap c l h = (a, h') -> nth_error h x = Some v -> nth_error h' x = Some v).
  { clear. unfold read_rap. intros [c|] l h a h' E Hv; injection E as <- <-; [exact Hv|].
    assert (L : (x < length h)%nat) by (apply nth_error_Some; congruence). rewrite nth_error_app1 by exact L. exact Hv. }
  assert (G : exists h ac, nth_error h x = Some v /\ ac <> x /\ rheap s' = set_nth h ac (map (fun p => Fin (pt p)) cand)).
  { unfold arg_closest in H. destruct same.
    - destruct (read_rap (rcand s) focus (rheap s)) as (af, h1) eqn:E1. cbn [read_rap] in H. destruct (NE _ _ _ _ _ E1 Hv Hx) as (N1 & V1).
      destruct H as (M & _ & H). exists h1, af. split; [exact V1|]. split; [exact N1|]. destruct M; [destruct H as (-> & _)|destruct H as (_ & ->)]; reflexivity.
    - destruct (read_rap (rfocus s) focus (rheap s)) as (af, h1) eqn:E1. destruct (read_rap (rcand s) cand h1) as (ac, h2) eqn:E2.
      pose proof (NE' _ _ _ _ _ E1 Hv) as V1. destruct (NE _ _ _ _ _ E2 V1 Hx) as (N2 & V2).
      destruct H as (M & _ & H). exists h2, ac. split; [exact V2|]. split; [exact N2|]. destruct M; [destruct H as (-> & _)|destruct H as (_ & ->)]; reflexivity. }
  destruct G as (h & ac & V & N & ->). rewrite set_nth_other by exact N. exact V.
Qed.
(** ** C95: fewer candidates than focus momenta *)
Theorem C95_fewer_candidates_refuted : forall deg same focus cand s idxs s', (length cand < length focus)%nat ->
  arg_closest deg same focus cand s (Ok idxs) s' -> length idxs = length cand /\ length idxs <> length focus.
Proof.
  intros deg same focus cand s idxs s' HN H. unfold arg_closest in H.
  destruct (read_rap _ focus _) as (af, h1). destruct (read_rap _ cand _) as (ac, h2). destruct H as (M & HM & H). destruct M as [C|e]; [|destruct H; discriminate].
  destruct H as (_ & r & HL & E). unfold linear_sum_assignment in HL. destruct (forallb _ C); [|subst r; discriminate].
  destruct HL as (a & ((_ & _ & _ & L) & _) & ->). injection E as ->. rewrite map_length, L. lia.
Qed.
(** The indices are those of a cheapest maximal matching, but the matched rows are discarded. *)
Theorem C95_matching_partial : forall deg same focus cand s idxs s', arg_closest deg same focus cand s (Ok idxs) s' ->
  exists C rows, length C = length focus /\
    best_matching (length focus) (length cand) (fun i j => fval (nth j (nth i C []) NaN)) (combine rows idxs) /\ length rows = length idxs /\
    length idxs = Nat.min (length focus) (length cand).
Proof.
  intros deg same focus cand s idxs s' H. unfold arg_closest in H.
  destruct (read_rap _ focus _) as (af, h1). destruct (read_rap _ cand _) as (ac, h2). destruct H as (M & HM & H). destruct M as [C|e]; [|destruct H; discriminate].
  apply assignment_cost_result in HM. destruct (Req_EM_T _ 0); [discriminate|]. injection HM as HM.
  destruct H as (_ & r & HL & E). unfold linear_sum_assignment in HL. destruct (forallb _ C); [|subst r; discriminate].
  destruct HL as (a & HB & ->). injection E as ->. exists C, (map fst a).
  assert (EC : combine (map fst a) (map snd a) = a) by (clear; induction a as [|(i, j) a IH]; [reflexivity|]; cbn; f_equal; exact IH).
  split; [rewrite HM; unfold cost_matrix; rewrite map_length, seq_length; reflexivity|]. rewrite EC. split; [exact HB|]. rewrite !map_length. split; [reflexivity|]. apply HB.
Qed.
Example C95_demo : (length [Mom 0 2 0 3; Mom 1 0 0 2] < length [Mom 1 0 0 2; Mom 0 1 0 3; Mom 2 1 0 4])%nat.
Proof. cbn. lia. Qed.

Print Assumptions C55_runs.
Print Assumptions C55_assignment.
Print Assumptions C66_assignment_cost.
Print Assumptions C66_assignment_cost_exists.
Print Assumptions C67_arg_closest.
Print Assumptions C91_equal_pt_refuted.
Print Assumptions C91_different_pt_partial.
Print Assumptions C92_after_raise_refuted.
Print Assumptions C92_otherwise_partial.
Print Assumptions C96_held_array_refuted.
Print Assumptions C96_other_arrays_partial.
Print Assumptions C95_fewer_candidates_refuted.
Print Assumptions C95_matching_partial.
