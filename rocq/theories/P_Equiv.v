(** C161 - C163: vertex labels and record order carry no meaning; descendants of descendants. *)
From Verif Require Import Prelude Dict Keys MaskTypes SpecMask Mask MaskProofs SpecArray SpecAdj SpecPart Arrays ArraysProofs Adjacency AdjacencyProofs
  Descend DescendProofs SpecHard Hard P_Adjacency P_Descend P_Hard Hierarchy Partition PartProofs P_Part RealBase SpecReal Kinem Clusters ClustersProofs.
From Coq Require Import Classical Permutation.
Import SpecPart.

(** The same records with every vertex renamed by [f]; different vertices get different names. *)
Definition relabel (f : Z -> Z) (es : edges) : edges := map (fun e => (f (fst e), f (snd e))) es.
Definition keeps_apart (f : Z -> Z) (V : Z -> Prop) : Prop := forall a b, V a -> V b -> f a = f b -> a = b.
Definition relabel_event (f : Z -> Z) (ev : event) : event := mkE (relabel f (e_edges ev)) (e_pdg ev) (e_status ev) (e_final ev).

Lemma blist_ext (l r : list bool) : length l = length r -> (forall i, nth_error l i = Some true <-> nth_error r i = Some true) -> l = r.
Proof.
  revert r. induction l as [|x l IH]; intros [|y r] L H; try discriminate; [reflexivity|]. f_equal.
  - specialize (H 0). cbn in H. destruct x, y; try reflexivity; exfalso; [destruct H as (H & _) | destruct H as (_ & H)]; specialize (H eq_refl); discriminate.
  - apply IH; [cbn in L; lia|]. intros i. exact (H (S i)).
Qed.
Lemma ok_ext (x y : res (list bool)) n m m' : x = Ok m -> y = Ok m' -> length m = n -> length m' = n ->
  (forall i, i < n -> nth_error m i = Some true <-> nth_error m' i = Some true) -> x = y.
Proof.
  intros -> -> L L' H. f_equal. apply blist_ext; [congruence|]. intros i. destruct (Nat.lt_ge_cases i n) as [Hi|Hi]; [apply H, Hi|].
  rewrite !(proj2 (nth_error_None _ _)) by lia. split; discriminate.
Qed.

Section Labels.
  Variables (f : Z -> Z) (es : edges).
  Lemma relabel_length : length (relabel f es) = length es. Proof. apply map_length. Qed.
  Lemma relabel_In x y : In (x, y) (relabel f es) <-> exists a b, x = f a /\ y = f b /\ In (a, b) es.
  Proof.
    unfold relabel. rewrite in_map_iff. split.
    - intros ([a b] & E & H). cbn in E. injection E as <- <-. exists a, b. auto.
    - intros (a & b & -> & -> & H). exists (a, b). auto.
  Qed.
  Lemma relabel_nth i : nth_error (relabel f es) i = option_map (fun e => (f (fst e), f (snd e))) (nth_error es i).
  Proof. apply nth_error_map. Qed.
  Lemma vertex_src a b : In (a, b) es -> vertex es a. Proof. intros H. left. exists b. exact H. Qed.
  Lemma vertex_dst a b : In (a, b) es -> vertex es b. Proof. intros H. right. exists a. exact H. Qed.

  Section At.
    Variable v : Z.
    Hypothesis HF : keeps_apart f (fun a => vertex es a \/ a = v).
    Lemma src_relabel : src_of (relabel f es) (f v) <-> src_of es v.
    Proof.
      split; intros (w & H).
      - apply relabel_In in H as (a & b & E & _ & H). exists b. rewrite (HF v a); [exact H | right; reflexivity | left; eapply vertex_src, H | exact E].
      - exists (f w). apply relabel_In. exists v, w. auto.
    Qed.
    Lemma reach_to a : reach es v a -> reach (relabel f es) (f v) (f a).
    Proof. induction 1; [apply R_refl|]. eapply R_step; [exact IHreach|]. apply relabel_In. exists a, b. auto. Qed.
    Lemma reach_vertex a : reach es v a -> vertex es a \/ a = v.
    Proof. intros H. destruct H as [|a b _ H]; [right; reflexivity|]. left. eapply vertex_dst, H. Qed.
    Lemma reach_from x : reach (relabel f es) (f v) x -> exists a, x = f a /\ reach es v a.
    Proof.
      induction 1 as [|x y _ (a & -> & IH) H]; [exists v; split; [reflexivity|apply R_refl]|].
      apply relabel_In in H as (c & d & E & -> & H). exists d. split; [reflexivity|]. assert (c = a) as -> by (symmetry; apply HF; [apply reach_vertex, IH | left; eapply vertex_src, H | exact E]).
      eapply R_step; eauto.
    Qed.
    Lemma descendants_relabel : vertex_descendants (relabel f es) (f v) = vertex_descendants es v.
    Proof.
      destruct (C36_vertex_descendants es v) as (m & E & L & H). destruct (C36_vertex_descendants (relabel f es) (f v)) as (m' & E' & L' & H'). rewrite relabel_length in L'.
      apply (ok_ext _ _ (length es) m' m E' E L' L). intros i Hi. destruct (nth_error es i) as [(a & b)|] eqn:En; [|apply nth_error_None in En; lia].
      assert (I : In (a, b) es) by (eapply nth_error_In, En).
      destruct (H i a b En) as (x & Ex & X1 & X2). destruct (H' i (f a) (f b)) as (y & Ey & Y1 & Y2); [rewrite relabel_nth, En; reflexivity|].
      rewrite Ex, Ey. assert (Q : y = true <-> x = true); [|split; intros Z; injection Z as Z; f_equal; tauto].
      assert (D : src_of es v \/ ~ src_of es v).
      { rewrite <- existsb_map_true. destruct (existsb _ _); [left; reflexivity|right; discriminate]. }
      destruct D as [D|D].
      - rewrite (X1 D). rewrite (Y1 (proj2 src_relabel D)). split; [|apply reach_to]. intros R. apply reach_from in R as (c & E1 & R). assert (a = c) as ->; [|exact R].
        apply HF; [left; eapply vertex_src, I | apply reach_vertex, R | exact E1].
      - rewrite (X2 D). assert (D' : ~ src_of (relabel f es) (f v)) by (rewrite src_relabel; exact D). rewrite (Y2 D'). split; [|intros ->; reflexivity].
        intros E1. apply HF; [left; eapply vertex_dst, I | right; reflexivity | exact E1].
    Qed.
  End At.
End Labels.

(** C161: renaming the vertices changes no mask. *)
Theorem C161_edges : forall f es, keeps_apart f (vertex es) ->
  roots (relabel f es) = roots es /\ leaves (relabel f es) = leaves es /\
  (forall v, keeps_apart f (fun a => vertex es a \/ a = v) -> vertex_descendants (relabel f es) (f v) = vertex_descendants es v).
Proof.
  intros f es HF. split; [|split]; [| |intros v Hv; apply descendants_relabel, Hv].
  - destruct es as [|e0 r]; [reflexivity|]. set (es := e0 :: r) in *. destruct (C31_roots es) as (m & E & L & H); [discriminate|].
    destruct (C31_roots (relabel f es)) as (m' & E' & L' & H'); [discriminate|]. rewrite relabel_length in L'.
    apply (ok_ext _ _ (length es) m' m E' E L' L). intros i Hi. destruct (nth_error es i) as [(a & b)|] eqn:En; [|apply nth_error_None in En; lia].
    destruct (H i a b En) as (x & Ex & X). destruct (H' i (f a) (f b)) as (y & Ey & Y); [rewrite relabel_nth, En; reflexivity|].
    rewrite Ex, Ey. assert (Q : y = true <-> x = true); [|split; intros Z; injection Z as Z; f_equal; tauto].
    rewrite X, Y. split; intros N (w & Hw); apply N.
    + exists (f w). apply relabel_In. exists w, a. auto.
    + apply relabel_In in Hw as (c & d & _ & E1 & Hw). exists c. rewrite (HF a d); [exact Hw | eapply vertex_src, nth_error_In, En | eapply vertex_dst, Hw | exact E1].
  - destruct es as [|e0 r]; [reflexivity|]. set (es := e0 :: r) in *. destruct (C31_leaves es) as (m & E & L & H); [discriminate|].
    destruct (C31_leaves (relabel f es)) as (m' & E' & L' & H'); [discriminate|]. rewrite relabel_length in L'.
    apply (ok_ext _ _ (length es) m' m E' E L' L). intros i Hi. destruct (nth_error es i) as [(a & b)|] eqn:En; [|apply nth_error_None in En; lia].
    destruct (H i a b En) as (x & Ex & X). destruct (H' i (f a) (f b)) as (y & Ey & Y); [rewrite relabel_nth, En; reflexivity|].
    rewrite Ex, Ey. assert (Q : y = true <-> x = true); [|split; intros Z; injection Z as Z; f_equal; tauto].
    rewrite X, Y. split; intros N (w & Hw); apply N.
    + exists (f w). apply relabel_In. exists b, w. auto.
    + apply relabel_In in Hw as (c & d & E1 & _ & Hw). exists d. rewrite (HF b c); [exact Hw | eapply vertex_dst, nth_error_In, En | eapply vertex_src, Hw | exact E1].
Qed.
Print Assumptions C161_edges.

Lemma getkey_sub {A} (P : A -> Prop) l k r : Forall P l -> getkey l k = Ok r -> Forall P r.
Proof. intros H E. apply CompositeProofs.getkey_forall with (l := l) (k := k); assumption. Qed.
Lemma mapM_same {A B} (g h : A -> res B) l : (forall x, In x l -> g x = h x) -> mapM g l = mapM h l.
Proof. induction l as [|x l IH]; intros H; [reflexivity|]. cbn [mapM]. rewrite (H x), IH; auto using in_eq, in_cons. Qed.
Lemma mapM_comp {A B C} (g : B -> res C) (h : A -> B) l : mapM g (map h l) = mapM (fun x => g (h x)) l.
Proof. induction l as [|x l IH]; [reflexivity|]. cbn [map mapM]. rewrite IH. reflexivity. Qed.
Lemma descs_relabel f es l : keeps_apart f (vertex es) -> Forall (fun e => In e es) l ->
  mapM (fun e => vertex_descendants (relabel f es) (snd e)) (map (fun e => (f (fst e), f (snd e))) l) = mapM (fun e => vertex_descendants es (snd e)) l.
Proof.
  intros HF HL. rewrite mapM_comp. apply mapM_same. intros (a & b) I. cbn [snd]. apply descendants_relabel.
  rewrite Forall_forall in HL. assert (V : vertex es b) by (eapply vertex_dst, HL, I).
  intros x y [Hx| ->] [Hy| ->]; auto.
Qed.

(** The masks of the hard partons and the whole hierarchy, errors included. *)
Theorem C161_hard : forall f name ev, keeps_apart f (vertex (e_edges ev)) ->
  (forall target ss strict, hard_descendants name (relabel_event f ev) target ss strict = hard_descendants name ev target ss strict) /\
  (forall fuel desc, hierarchy name fuel (relabel_event f ev) desc = hierarchy name fuel ev desc).
Proof.
  intros f name ev HF.
  assert (HD : forall target ss strict, hard_descendants name (relabel_event f ev) target ss strict = hard_descendants name ev target ss strict).
  { intros target ss strict. unfold hard_descendants. cbv zeta. cbn [e_edges e_pdg e_status relabel_event].
    destruct (data (hard_noninc (e_status ev))) as [hd|]; cbn [bind]; [|reflexivity]. destruct (getkey (e_pdg ev) (KMask hd)) as [pdg|]; cbn [bind]; [|reflexivity].
    unfold relabel at 1. rewrite getkey_map. destruct (getkey (e_edges ev) (KMask hd)) as [es|] eqn:Ees; cbn [rmap bind]; [|reflexivity].
    assert (HI : Forall (fun e => In e (e_edges ev)) es) by (eapply getkey_sub; [|exact Ees]; apply Forall_forall; auto).
    destruct target as [t|].
    - destruct (negb _); cbn [bind]; [reflexivity|]. destruct (getkey pdg _) as [found|] eqn:Ef; cbn [bind]; [|reflexivity]. destruct (strict && _); cbn [bind]; [reflexivity|].
      rewrite getkey_map. destruct (getkey es _) as [es'|] eqn:Ees'; cbn [rmap bind fst snd]; [|reflexivity].
      rewrite descs_relabel; [reflexivity | exact HF |]. eapply getkey_sub; [exact HI | exact Ees'].
    - cbn [bind fst snd]. rewrite descs_relabel by assumption. reflexivity. }
  split; [exact HD|]. intros fuel desc. unfold hierarchy. cbv zeta. rewrite HD. cbn [e_edges e_pdg e_status e_final relabel_event].
  assert (LB : forall m, leaf_branch (relabel f (e_edges ev)) m = leaf_branch (e_edges ev) m).
  { intros m. unfold leaf_branch. destruct (data m) as [d|]; cbn [bind]; [|reflexivity]. unfold relabel at 1. rewrite map_map. cbn [fst].
    replace (map (fun x => f (fst x)) (e_edges ev)) with (map f (map fst (e_edges ev))) by (rewrite map_map; reflexivity). rewrite getkey_map.
    destruct (getkey (map fst (e_edges ev)) (KMask d)) as [srcs|] eqn:Es; cbn [rmap bind]; [|reflexivity].
    assert (HI : Forall (fun s => vertex (e_edges ev) s) srcs).
    { eapply getkey_sub; [|exact Es]. apply Forall_forall. intros s Hs. apply in_map_iff in Hs as ((a & b) & <- & H). eapply vertex_src, H. }
    unfold get. destruct srcs as [|s srcs]; cbn; [reflexivity|]. inversion HI as [|? ? Hs _]; subst. clear - HF Hs.
    assert (EI : map (fun e => (snd e =? f s)%Z) (relabel f (e_edges ev)) = map (fun e => (snd e =? s)%Z) (e_edges ev)).
    { unfold relabel. rewrite map_map. apply map_ext_in. intros (a & b) I. cbn. destruct (Z.eqb_spec b s) as [->|N]; [apply Z.eqb_refl|].
      apply Z.eqb_neq. intros E. apply N, HF; [eapply vertex_dst, I | exact Hs | exact E]. }
    rewrite EI. reflexivity. }
  assert (MN : forall fuel hard desc flat, make_nest fuel hard desc (relabel f (e_edges ev)) flat = make_nest fuel hard desc (e_edges ev) flat).
  { clear - LB. induction fuel as [|fuel IH]; intros hard desc flat; cbn [make_nest].
    - generalize (@nil (string * mask)). induction flat as [|p flat IHf]; intros acc; [reflexivity|]. cbn [foldM]. destruct (dget p hard); [reflexivity|].
      destruct (match dget p desc with Some m => Ok m | None => Err KeyError end) as [m|]; cbn [bind]; [|reflexivity]. rewrite LB. destruct (leaf_branch _ m); cbn [bind]; [apply IHf|reflexivity].
    - generalize (@nil (string * mask)). induction flat as [|p flat IHf]; intros acc; [reflexivity|]. cbn [foldM]. destruct (dget p hard) as [ks|].
      + rewrite IH. destruct (make_nest fuel hard desc (e_edges ev) ks) as [sub|]; cbn [bind]; [|reflexivity]. destruct (with_latent desc p sub); cbn [bind]; [apply IHf|reflexivity].
      + destruct (match dget p desc with Some m => Ok m | None => Err KeyError end) as [m|]; cbn [bind]; [|reflexivity]. rewrite LB. destruct (leaf_branch _ m); cbn [bind]; [apply IHf|reflexivity]. }
  assert (MT : forall hard desc, make_tree fuel hard desc (relabel f (e_edges ev)) = make_tree fuel hard desc (e_edges ev)).
  { intros hard dc. unfold make_tree. cbv zeta. f_equal.
    assert (G : forall items keep acc, foldM (fun branch item => if existsb (String.eqb (fst item)) keep then
        sub <- make_nest fuel hard dc (relabel f (e_edges ev)) (snd item) ;; m <- with_latent dc (fst item) sub ;; Ok (dset (fst item) m branch) else Ok branch) items acc =
      foldM (fun branch item => if existsb (String.eqb (fst item)) keep then
        sub <- make_nest fuel hard dc (e_edges ev) (snd item) ;; m <- with_latent dc (fst item) sub ;; Ok (dset (fst item) m branch) else Ok branch) items acc).
    { intros items keep. induction items as [|it items IH]; intros acc; [reflexivity|]. cbn [foldM]. destruct (existsb _ keep); [|apply IH]. rewrite MN.
      destruct (make_nest fuel hard dc (e_edges ev) (snd it)) as [sub|]; cbn [bind]; [|reflexivity]. destruct (with_latent dc (fst it) sub); cbn [bind]; [apply IH|reflexivity]. }
    apply G. }
  repeat match goal with |- bind ?x _ = bind ?x _ => destruct x; cbn [bind]; [|reflexivity] end.
  destruct (negb _); [reflexivity|]. repeat match goal with |- bind ?x _ = bind ?x _ => destruct x; cbn [bind]; [|reflexivity] end. apply MT.
Qed.
Print Assumptions C161_hard.

Section Vtx.
  Variables (f : Z -> Z) (es : edges).
  Hypothesis HF : keeps_apart f (vertex es).
  Lemma at_nth (i : nat) (a b : Z) : nth_error es i = Some (a, b) -> vertex es a /\ vertex es b.
  Proof using. intros H. apply nth_error_In in H. split; [eapply vertex_src, H | eapply vertex_dst, H]. Qed.
  Lemma at_src (i : nat) (a b : Z) : nth_error es i = Some (a, b) -> vertex es a. Proof using. intros H. apply (at_nth i a b H). Qed.
  Lemma at_dst (i : nat) (a b : Z) : nth_error es i = Some (a, b) -> vertex es b. Proof using. intros H. apply (at_nth i a b H). Qed.
  Lemma hv_relabel status x : hadron_vertex (relabel f es) status x <-> exists v, x = f v /\ hadron_vertex es status v.
  Proof using.
    split.
    - intros (i & w & s & E & Es & R). rewrite relabel_nth in E. destruct (nth_error es i) as [(a & b)|] eqn:Ei; [|discriminate]. cbn in E. injection E as <- <-.
      exists a. split; [reflexivity|]. exists i, b, s. auto.
    - intros (v & -> & i & w & s & E & Es & R). exists i, (f w), s. rewrite relabel_nth, E. auto.
  Qed.
  Lemma incident_relabel v e : vertex es v -> incident (relabel f es) (f v) e <-> incident es v e.
  Proof using HF.
    intros V. split.
    - intros (a & E). rewrite relabel_nth in E. destruct (nth_error es e) as [(c & d)|] eqn:Ei; [|discriminate]. cbn in E. injection E as _ E. exists c.
      rewrite Ei. repeat f_equal. apply HF; [eapply at_dst, Ei | exact V | exact E].
    - intros (a & E). exists (f a). rewrite relabel_nth, E. reflexivity.
  Qed.
  Lemma fd_relabel final v i : vertex es v -> final_desc (relabel f es) final (f v) i <-> final_desc es final v i.
  Proof using HF.
    intros V. assert (HV : keeps_apart f (fun a => vertex es a \/ a = v)) by (intros x y [Hx| ->] [Hy| ->]; auto). split.
    - intros (Fi & a & b & E & R). split; [exact Fi|]. rewrite relabel_nth in E. destruct (nth_error es i) as [(c & d)|] eqn:Ei; [|discriminate]. cbn in E. injection E as <- _.
      exists c, d. split; [reflexivity|]. apply (reach_from f es v HV) in R as (g & E & R). replace c with g; [exact R|]. apply HF; [|eapply at_src, Ei|auto].
      destruct (reach_vertex es v _ R) as [|G]; [assumption | subst g; exact V].
    - intros (Fi & a & b & E & R). split; [exact Fi|]. exists (f a), (f b). rewrite relabel_nth, E. split; [reflexivity|]. apply reach_to. exact R.
  Qed.
  Lemma hv_vertex status v : hadron_vertex es status v -> vertex es v.
  Proof using. intros (i & w & s & E & _). eapply at_src, E. Qed.
  Lemma touches_relabel d v : vertex es v -> touches (relabel f es) d (f v) <-> touches es d v.
  Proof using HF. intros V. unfold touches. split; intros (e & I & T); exists e; (split; [|exact T]); apply (incident_relabel v e V); exact I. Qed.
  Lemma nearest_relabel {P D} (dist : P -> P -> D) lt pmu v i e : vertex es v -> nearest dist lt (relabel f es) pmu (f v) i e <-> nearest dist lt es pmu v i e.
  Proof using HF.
    intros V. unfold nearest. rewrite (incident_relabel v e V). apply and_iff_compat_l.
    split; intros (pe & pi & E1 & E2 & H); exists pe, pi; (split; [exact E1|]); (split; [exact E2|]); intros e' pe' I; apply H; apply (incident_relabel v e' V); exact I.
  Qed.
  Lemma selected_relabel status kids x : selected (relabel f es) status kids x <-> exists v, x = f v /\ selected es status kids v.
  Proof using HF.
    unfold selected. rewrite hv_relabel. split.
    - intros ((v & -> & HV) & e & k & c & I & K & T). exists v. split; [reflexivity|]. split; [exact HV|]. exists e, k, c. split; [|auto].
      apply incident_relabel; [eapply hv_vertex, HV | exact I].
    - intros (v & -> & HV & e & k & c & I & K & T). split; [eauto|]. exists e, k, c. split; [|auto]. apply incident_relabel; [eapply hv_vertex, HV | exact I].
  Qed.
  Lemma event_relabel {P} n status final (pmu : list P) : event_ok n es status final pmu -> event_ok n (relabel f es) status final pmu.
  Proof using HF.
    intros (L1 & L2 & L3 & L4 & HS & HD & HFi). split; [rewrite relabel_length; exact L1|]. do 4 (split; [assumption|]). split.
    - intros x y i Hx Hy. apply hv_relabel in Hx as (v & -> & Hv). apply hv_relabel in Hy as (w & -> & Hw). rewrite !fd_relabel by (eapply hv_vertex; eassumption).
      intros A B. f_equal. eapply HD; eauto.
    - intros x i Hx Fi. apply hv_relabel in Hx as (v & -> & Hv). rewrite incident_relabel by (eapply hv_vertex; eassumption). apply HFi; assumption.
  Qed.
  Lemma partitioned_relabel {P D} (dist : P -> P -> D) lt status final pmu kids d d' :
    partitioned dist lt (relabel f es) final pmu (selected (relabel f es) status kids) d d' <-> partitioned dist lt es final pmu (selected es status kids) d d'.
  Proof using HF.
    unfold partitioned. apply and_iff_compat_l. split; intros (H1 & H2); split.
    - intros v i e Hv T Fd N. assert (V : vertex es v) by (eapply hv_vertex, Hv).
      apply (H1 (f v) i e); [apply selected_relabel; eauto | apply touches_relabel; assumption | apply fd_relabel; assumption | apply nearest_relabel; assumption].
    - intros i Hi. apply H2. intros x Hx. apply selected_relabel in Hx as (v & -> & Hv). assert (V : vertex es v) by (eapply hv_vertex, Hv).
      rewrite touches_relabel, fd_relabel by assumption. apply Hi, Hv.
    - intros x i e Hx. apply selected_relabel in Hx as (v & -> & Hv). assert (V : vertex es v) by (eapply hv_vertex, Hv).
      rewrite touches_relabel, fd_relabel, nearest_relabel by assumption. apply H1, Hv.
    - intros i Hi. apply H2. intros v Hv T. assert (V : vertex es v) by (eapply hv_vertex, Hv). rewrite <- (fd_relabel final v i V).
      apply Hi; [apply selected_relabel; eauto | apply touches_relabel; assumption].
  Qed.
End Vtx.

(** The result of a partition is determined by its specification. *)
Lemma lw_det (R1 R2 : list bool -> list bool -> Prop) : (forall d a b, R1 d a -> R2 d b -> a = b) -> forall m x y, lw R1 m x -> lw R2 m y -> x = y.
Proof.
  intros HR m. induction m as [d|a kids IH] using mask_ind'; intros [x|ax kx] [y|ay ky] Hx Hy; try contradiction.
  - f_equal. eapply HR; eassumption.
  - apply lw_grp in Hx as (<- & Hx). apply lw_grp in Hy as (<- & Hy). f_equal. revert kx ky Hx Hy. induction IH as [|p r Hp _ IHr]; intros kx ky Hx Hy; inversion Hx; inversion Hy; subst; [reflexivity|].
    f_equal; [|apply IHr; assumption]. match goal with A : lwk R1 p ?q, B : lwk R2 p ?q' |- _ => destruct q as (k1 & v1), q' as (k2 & v2), A as (E1 & A), B as (E2 & B) end.
    cbn in *. subst k1 k2. destruct (String.eqb (fst p) "latent"); [congruence|]. f_equal. eapply Hp; eassumption.
Qed.
Lemma partitioned_det {P D} (dist : P -> P -> D) lt n es status final (pmu : list P) kids d a b : weak_order lt -> event_ok n es status final pmu ->
  partitioned dist lt es final pmu (selected es status kids) d a -> partitioned dist lt es final pmu (selected es status kids) d b -> a = b.
Proof.
  intros HW HE (La & A1 & A2) (Lb & B1 & B2). apply blist_ext; [congruence|]. intros i.
  destruct (classic (exists v, selected es status kids v /\ touches es d v /\ final_desc es final v i)) as [(v & S & T & Fd)|N].
  - destruct (C49_nearest_exists dist lt n es status final pmu v i HW HE) as (e & Ne & _); [apply S | destruct T as (e & I & _); eauto | exact Fd |].
    rewrite (A1 v i e S T Fd Ne), (B1 v i e S T Fd Ne). reflexivity.
  - rewrite A2, B2; [reflexivity | |]; intros v S T Fd; apply N; eauto.
Qed.

(** The partition of hadrons among partons, although vertices are visited in another order. *)
Theorem C161_partition : forall P D (dist : P -> P -> D) lt f n es status final (pmu : list P) agg kids,
  keeps_apart f (vertex es) -> weak_order lt -> event_ok n es status final pmu -> branches_ok n kids ->
  partition_descendants dist lt (relabel f es) status final pmu (MGrp agg kids) = partition_descendants dist lt es status final pmu (MGrp agg kids).
Proof.
  intros P D dist lt f n es status final pmu agg kids HF HW HE (Hne & Hag). pose proof (event_relabel f es HF n status final pmu HE) as HE'.
  pose proof HE as (L1 & L2 & L3 & L4 & HS & HD & HFi). pose proof HE' as (L1' & _ & _ & _ & _ & HD' & HFi').
  destruct (partition_ok dist lt HW n es status final pmu L1 L2 L3 L4 HS HD HFi agg kids Hne Hag) as (k1 & E1 & T1).
  destruct (partition_ok dist lt HW n (relabel f es) status final pmu L1' L2 L3 L4 HS HD' HFi' agg kids Hne Hag) as (k2 & E2 & T2).
  rewrite E1, E2. do 2 f_equal. clear E1 E2 Hne Hag.
  assert (DET : forall m x y, lw (Inv dist lt n (relabel f es) final pmu (selected (relabel f es) status kids)) m x -> lw (Inv dist lt n es final pmu (selected es status kids)) m y -> x = y).
  { apply lw_det. intros d a b (_ & A) (_ & B). apply (partitioned_relabel f es HF dist lt) in A. exact (partitioned_det dist lt n es status final pmu kids d a b HW HE A B). }
  unfold top in T1, T2. revert T1 T2 DET. generalize (Inv dist lt n (relabel f es) final pmu (selected (relabel f es) status kids)) (Inv dist lt n es final pmu (selected es status kids)).
  intros R2 R1 T1 T2 DET. revert k2 T2. induction T1 as [|p q r r' (Ek & Hl) _ IH]; intros k2 T2; inversion T2 as [|? q2 ? r2 (Ek2 & Hl2) T2']; subst; [reflexivity|].
  f_equal; [|apply IH; assumption]. destruct q, q2. cbn in *. subst. f_equal. eapply DET; eassumption.
Qed.
Print Assumptions C161_partition.

(** The vertices found are the renamed ones. *)
Theorem C161_vertices : forall f es, keeps_apart f (vertex es) ->
  (forall status, length status = length es -> Forall fits16 status -> exists vs ws, hadron_vertices es status = Ok vs /\
     hadron_vertices (relabel f es) status = Ok ws /\ Permutation ws (map f vs)) /\
  (forall pdg pin pout, length pdg = length es -> pin <> None \/ pout <> None -> exists vs ws, find_vertex es pdg pin pout = Ok vs /\
     find_vertex (relabel f es) pdg pin pout = Ok ws /\ Permutation ws (map f vs)).
Proof.
  intros f es HF.
  assert (PM : forall vs ws, StronglySorted Z.lt vs -> StronglySorted Z.lt ws -> (forall v, In v vs -> vertex es v) -> (forall x, In x ws <-> exists v, x = f v /\ In v vs) -> Permutation ws (map f vs)).
  { intros vs ws S1 S2 HV H. apply NoDup_Permutation; [apply Sorted_lt_NoDup, S2 | | intros x; rewrite H, in_map_iff; firstorder].
    apply Sorted_lt_NoDup in S1. clear S2 H. induction S1 as [|v vs N _ IH]; constructor; [|apply IH; intros; apply HV; right; assumption].
    intros I. apply in_map_iff in I as (w & E & I). apply N. replace v with w; [exact I|]. apply HF; [apply HV; right; exact I | apply HV; left; reflexivity | exact E]. }
  split.
  - intros status L H16. destruct (C38_hadron_vertices es status L H16) as (vs & E & S & H). destruct (C38_hadron_vertices (relabel f es) status) as (ws & E' & S' & H'); [rewrite relabel_length; exact L | exact H16 |].
    exists vs, ws. do 2 (split; [assumption|]). apply PM; [assumption | assumption | intros v I; apply H in I; eapply hv_vertex, I |].
    intros x. rewrite H'. pose proof (hv_relabel f es status x) as Q. unfold hadron_vertex in Q. rewrite Q. setoid_rewrite H. reflexivity.
  - intros pdg pin pout L HN. destruct (C39_find_vertex es pdg pin pout L HN) as (vs & E & S & H). destruct (C39_find_vertex (relabel f es) pdg pin pout) as (ws & E' & S' & H'); [rewrite relabel_length; exact L | exact HN |].
    exists vs, ws. do 2 (split; [assumption|]). apply PM; [assumption | assumption | intros v I; apply H in I; apply I |].
    assert (IN : forall v z, vertex es v -> (exists i a, nth_error (relabel f es) i = Some (a, f v) /\ nth_error pdg i = Some z) <-> (exists i a, nth_error es i = Some (a, v) /\ nth_error pdg i = Some z)).
    { intros v z V. split; intros (i & a & En & Ep).
      - rewrite relabel_nth in En. destruct (nth_error es i) as [(c & d)|] eqn:Ei; [|discriminate]. cbn in En. injection En as _ En. exists i, c. split; [|exact Ep]. rewrite Ei. repeat f_equal.
        apply HF; [eapply at_dst, Ei | exact V | exact En].
      - exists i, (f a). rewrite relabel_nth, En. auto. }
    assert (OUT : forall v z, vertex es v -> (exists i a, nth_error (relabel f es) i = Some (f v, a) /\ nth_error pdg i = Some z) <-> (exists i a, nth_error es i = Some (v, a) /\ nth_error pdg i = Some z)).
    { intros v z V. split; intros (i & a & En & Ep).
      - rewrite relabel_nth in En. destruct (nth_error es i) as [(c & d)|] eqn:Ei; [|discriminate]. cbn in En. injection En as En _. exists i, d. split; [|exact Ep]. rewrite Ei. repeat f_equal.
        apply HF; [eapply at_src, Ei | exact V | exact En].
      - exists i, (f a). rewrite relabel_nth, En. auto. }
    intros x. rewrite H'. split.
    + intros (V & A & B). assert (exists v, x = f v /\ vertex es v) as (v & -> & Vv).
      { destruct V as [(w & I)|(w & I)]; apply relabel_In in I as (a & b & -> & -> & I); [exists a|exists b]; (split; [reflexivity|]); [eapply vertex_src, I | eapply vertex_dst, I]. }
      exists v. split; [reflexivity|]. apply H. split; [exact Vv|]. split; intros s z Es Iz; [apply IN | apply OUT]; eauto.
    + intros (v & -> & I). apply H in I as (V & A & B). split; [|split; intros s z Es Iz; [apply IN | apply OUT]; eauto].
      destruct V as [(w & I)|(w & I)]; [left | right]; exists (f w); apply relabel_In; eauto 6.
Qed.
Print Assumptions C161_vertices.

(** The clusters of an event. *)
Theorem C161_clusters : forall (D : Type) (dist : mom -> mom -> D) lt name order fuel f n ev color pmu radius,
  keeps_apart f (vertex (e_edges ev)) -> weak_order lt -> SpecHard.event_ok n ev -> event_ok n (e_edges ev) (e_status ev) (e_final ev) pmu ->
  (forall z, has_colon (name z) = false) -> (forall z, name z <> "latent"%string) -> length (hard_rows ev) <= fuel ->
  clusters name order fuel dist lt (relabel_event f ev) color pmu radius = clusters name order fuel dist lt ev color pmu radius.
Proof.
  intros D dist lt name order fuel f n ev color pmu radius HF HW HH HP Hn Hl Hf. unfold clusters. rewrite (proj2 (C161_hard f name ev HF)).
  destruct (hierarchy name fuel ev None) as [[d|agg kids]|] eqn:EH; cbn [bind]; [reflexivity| |reflexivity]. cbn [e_edges e_status e_final relabel_event].
  destruct kids as [|p kids]; [reflexivity|]. rewrite (C161_partition _ _ dist lt f n (e_edges ev) (e_status ev) (e_final ev) pmu agg (p :: kids) HF HW HP); [reflexivity|].
  split; [discriminate|]. intros k c I. destruct (tree_shape name ev n fuel agg (p :: kids) HH Hn Hl Hf EH) as (_ & _ & G & _). apply (G k c I).
Qed.
Print Assumptions C161_clusters.

(** The order of the vertices by label is reversed, and the labels stretched: all masks stay, the listed vertices follow. *)
Example C161_case :
  let f := fun z : Z => (100 - 3 * z)%Z in let es := [(0, 1); (1, 2); (1, 3); (2, 4); (2, 5)]%Z in
  keeps_apart f (vertex es) /\ roots (relabel f es) = Ok [true; false; false; false; false] /\
  vertex_descendants (relabel f es) (f 2%Z) = Ok [false; false; false; true; true] /\
  find_vertex (relabel f es) [6; 24; 5; 2; -1]%Z (Some [6]%Z) None = Ok [f 1%Z].
Proof. split; [intros a b _ _ E; lia|]. repeat split; reflexivity. Qed.
Example C161_partition_case : let f := fun z : Z => (7 - z)%Z in
  keeps_apart f (vertex Demo.es) /\ partition_descendants Demo.dst Z.ltb (relabel f Demo.es) Demo.status Demo.final Demo.pmu (MGrp "or" Demo.kids) =
    partition_descendants Demo.dst Z.ltb Demo.es Demo.status Demo.final Demo.pmu (MGrp "or" Demo.kids).
Proof. split; [intros a b _ _ E; lia | vm_compute; reflexivity]. Qed.
(** Injectivity cannot be dropped: merging two vertices joins their descendants. *)
Example C161_merged : let f := fun z : Z => if (z =? 3)%Z then 1%Z else z in
  vertex_descendants [(1, 2); (3, 4)]%Z 1%Z = Ok [true; false] /\ vertex_descendants (relabel f [(1, 2); (3, 4)]%Z) (f 1%Z) = Ok [true; true].
Proof. split; reflexivity. Qed.

(** * C162: the order of the records *)
(** [l'] holds the entries of [l] in the order given by [ps]. *)
Definition reorders {A} (ps : list nat) (l l' : list A) : Prop := length l' = length ps /\ forall j i, nth_error ps j = Some i -> nth_error l' j = nth_error l i.

Section Reorder.
  Context {A : Type} (ps : list nat) (l l' : list A) (HP : Permutation ps (seq 0 (length l))) (HR : reorders ps l l').
  Lemma ps_len : length ps = length l. Proof using HP. rewrite (Permutation_length HP). apply seq_length. Qed.
  Lemma reorder_len : length l' = length l. Proof using HP HR. destruct HR as (L & _). rewrite L. apply ps_len. Qed.
  Lemma ps_at j : j < length l -> exists i, nth_error ps j = Some i /\ i < length l.
  Proof using HP.
    intros H. destruct (nth_error ps j) as [i|] eqn:E; [|apply nth_error_None in E; rewrite ps_len in E; lia]. exists i. split; [reflexivity|].
    apply nth_error_In, (Permutation_in _ HP), in_seq in E. lia.
  Qed.
  Lemma ps_to i : i < length l -> exists j, nth_error ps j = Some i.
  Proof using HP. intros H. apply In_nth_error, (Permutation_in _ (Permutation_sym HP)), in_seq. lia. Qed.
  Lemma reorder_In x : In x l' <-> In x l.
  Proof using HP HR.
    split; intros I; apply In_nth_error in I as (k & E).
    - assert (k < length l) as Hk by (rewrite <- reorder_len; apply nth_error_Some; congruence). destruct (ps_at k Hk) as (i & Ei & _). destruct HR as (_ & H). rewrite (H k i Ei) in E. eapply nth_error_In, E.
    - assert (k < length l) as Hk by (apply nth_error_Some; congruence). destruct (ps_to k Hk) as (j & Ej). destruct HR as (_ & H). rewrite <- (H j k Ej) in E. eapply nth_error_In, E.
  Qed.
End Reorder.

Section Records.
  Variables (ps : list nat) (es es' : edges).
  Hypotheses (HP : Permutation ps (seq 0 (length es))) (HR : reorders ps es es').
  Lemma re_src v : src_of es' v <-> src_of es v.
  Proof using HP HR. unfold src_of. setoid_rewrite (reorder_In ps es es' HP HR). reflexivity. Qed.
  Lemma re_dst v : dst_of es' v <-> dst_of es v.
  Proof using HP HR. unfold dst_of. setoid_rewrite (reorder_In ps es es' HP HR). reflexivity. Qed.
  Lemma re_reach v a : reach es' v a <-> reach es v a.
  Proof using HP HR. split; induction 1; try apply R_refl; eapply R_step; try eassumption; apply (reorder_In ps es es' HP HR); assumption. Qed.
  (** A mask function whose entry at a record depends on its edge only. *)
  Lemma re_mask (Q : Z -> Z -> Prop) (x y : res (list bool)) m m' : x = Ok m -> length m = length es -> y = Ok m' -> length m' = length es' ->
    (forall i a b, nth_error es i = Some (a, b) -> exists t, nth_error m i = Some t /\ (t = true <-> Q a b)) ->
    (forall i a b, nth_error es' i = Some (a, b) -> exists t, nth_error m' i = Some t /\ (t = true <-> Q a b)) ->
    exists m m', x = Ok m /\ y = Ok m' /\ reorders ps m m'.
  Proof using HP HR.
    intros Ex L Ey L' H H'. exists m, m'. split; [exact Ex|]. split; [exact Ey|]. split; [rewrite L'; apply HR|].
    intros j i Ej. assert (Hi : i < length es) by (apply nth_error_In, (Permutation_in _ HP), in_seq in Ej; lia).
    destruct (nth_error es i) as [(a & b)|] eqn:Ei; [|apply nth_error_None in Ei; lia]. destruct (H i a b Ei) as (t & Et & Q1).
    destruct (H' j a b) as (t' & Et' & Q2); [destruct HR as (_ & G); rewrite (G j i Ej); exact Ei|]. rewrite Et, Et'. f_equal. destruct t, t'; try reflexivity; [apply Q2, Q1 | symmetry; apply Q1, Q2]; reflexivity.
  Qed.
End Records.

Theorem C162_masks : forall ps es es', Permutation ps (seq 0 (length es)) -> reorders ps es es' -> es <> [] ->
  (exists m m', roots es = Ok m /\ roots es' = Ok m' /\ reorders ps m m') /\
  (exists m m', leaves es = Ok m /\ leaves es' = Ok m' /\ reorders ps m m') /\
  (forall v, exists m m', vertex_descendants es v = Ok m /\ vertex_descendants es' v = Ok m' /\ reorders ps m m') /\
  (forall a b, fits32 a -> fits32 b -> exists m m', edge_descendants es (a, b) = Ok m /\ edge_descendants es' (a, b) = Ok m' /\ reorders ps m m').
Proof.
  intros ps es es' HP HR Hne. assert (Hne' : es' <> []) by (intros E; apply Hne; apply length_zero_iff_nil; rewrite <- (reorder_len ps es es' HP HR), E; reflexivity).
  assert (VD : forall v, exists m m', vertex_descendants es v = Ok m /\ vertex_descendants es' v = Ok m' /\ reorders ps m m').
  { intros v. destruct (C36_vertex_descendants es v) as (m & E & L & H). destruct (C36_vertex_descendants es' v) as (m' & E' & L' & H').
    assert (D : src_of es v \/ ~ src_of es v). { rewrite <- existsb_map_true. destruct (existsb _ _); [left; reflexivity|right; discriminate]. }
    destruct D as [D|D].
    - apply (re_mask ps es es' HP HR (fun a _ => reach es v a) _ _ m m' E L E' L').
      + intros i a b Ei. destruct (H i a b Ei) as (t & Et & A & _). exists t. auto.
      + intros i a b Ei. destruct (H' i a b Ei) as (t & Et & A & _). exists t. split; [exact Et|]. rewrite <- (re_reach ps es es' HP HR). apply A. apply (re_src ps es es' HP HR). exact D.
    - apply (re_mask ps es es' HP HR (fun _ b => b = v) _ _ m m' E L E' L').
      + intros i a b Ei. destruct (H i a b Ei) as (t & Et & _ & A). exists t. auto.
      + intros i a b Ei. destruct (H' i a b Ei) as (t & Et & _ & A). exists t. split; [exact Et|]. apply A. rewrite (re_src ps es es' HP HR). exact D. }
  split; [|split; [|split; [exact VD|]]].
  - destruct (C31_roots es Hne) as (m & E & L & H). destruct (C31_roots es' Hne') as (m' & E' & L' & H').
    apply (re_mask ps es es' HP HR (fun a _ => ~ dst_of es a) _ _ m m' E L E' L' H). intros i a b Ei. destruct (H' i a b Ei) as (t & Et & A). exists t. split; [exact Et|].
    rewrite <- (re_dst ps es es' HP HR). exact A.
  - destruct (C31_leaves es Hne) as (m & E & L & H). destruct (C31_leaves es' Hne') as (m' & E' & L' & H').
    apply (re_mask ps es es' HP HR (fun _ b => ~ src_of es b) _ _ m m' E L E' L' H). intros i a b Ei. destruct (H' i a b Ei) as (t & Et & A). exists t. split; [exact Et|].
    rewrite <- (re_src ps es es' HP HR). exact A.
  - intros a b Ha Hb. destruct (VD b) as (m & m' & E & E' & R1 & R2). destruct (C37_edge_descendants es a b m Ha Hb E) as (d & Ed & Ld & H). destruct (C37_edge_descendants es' a b m' Ha Hb E') as (d' & Ed' & Ld' & H').
    exists d, d'. split; [exact Ed|]. split; [exact Ed'|]. split; [rewrite Ld'; apply HR|].
    intros j i Ej. assert (Hi : i < length es) by (apply nth_error_In, (Permutation_in _ HP), in_seq in Ej; lia).
    destruct (nth_error es i) as [e|] eqn:Ei; [|apply nth_error_None in Ei; lia]. destruct (H i e Ei) as (t & Et & Q1).
    destruct (H' j e) as (t' & Et' & Q2); [destruct HR as (_ & G); rewrite (G j i Ej); exact Ei|]. rewrite Et, Et'. f_equal. rewrite (R2 j i Ej) in Q2. destruct t, t'; try reflexivity; [apply Q2, Q1 | symmetry; apply Q1, Q2]; reflexivity.
Qed.
Print Assumptions C162_masks.

Theorem C162_vertices : forall ps es es', Permutation ps (seq 0 (length es)) -> reorders ps es es' ->
  (forall status status', length status = length es -> reorders ps status status' -> Forall fits16 status -> hadron_vertices es' status' = hadron_vertices es status) /\
  (forall pdg pdg' pin pout, length pdg = length es -> reorders ps pdg pdg' -> find_vertex es' pdg' pin pout = find_vertex es pdg pin pout).
Proof.
  intros ps es es' HP HR.
  assert (EQ : forall A (l l' : list A) (U : Z * Z -> Prop) (V : A -> Prop), length l = length es -> reorders ps l l' ->
    (exists i e s, nth_error es' i = Some e /\ nth_error l' i = Some s /\ U e /\ V s) <-> (exists i e s, nth_error es i = Some e /\ nth_error l i = Some s /\ U e /\ V s)).
  { intros A l l' U V L (R1 & R2). pose proof HR as (R3 & R4). split; intros (i & e & s & Ee & Es & HU & HV).
    - assert (Hi : i < length es) by (rewrite <- (reorder_len ps es es' HP HR); apply nth_error_Some; congruence). destruct (ps_at ps es HP i Hi) as (k & Ek & _).
      exists k, e, s. rewrite <- (R2 i k Ek), <- (R4 i k Ek). auto.
    - assert (Hi : i < length es) by (apply nth_error_Some; congruence). destruct (ps_to ps es HP i Hi) as (k & Ek). exists k, e, s. rewrite (R2 k i Ek), (R4 k i Ek). auto. }
  split.
  - intros status status' L RS H16. assert (L' : length status' = length es') by (destruct RS as (-> & _); destruct HR as (-> & _); reflexivity).
    assert (H16' : Forall fits16 status'). { apply Forall_forall. intros z I. apply (reorder_In ps status status') in I; [|rewrite L; exact HP|exact RS]. rewrite Forall_forall in H16. auto. }
    destruct (C38_hadron_vertices es status L H16) as (vs & E & S & H). destruct (C38_hadron_vertices es' status' L' H16') as (ws & E' & S' & H'). rewrite E, E'. f_equal.
    apply sorted_eq; [assumption..|]. intros v. rewrite H, H'.
    specialize (EQ Z status status' (fun e => fst e = v) (fun s => (80 <= Z.abs s <= 90)%Z) L RS).
    split; intros (i & w & s & Ee & Es & HS); [destruct EQ as (EQ & _) | destruct EQ as (_ & EQ)].
    all: destruct EQ as (k & (a & b) & t & X1 & X2 & X3 & X4); [exists i, (v, w), s; auto|]; cbn in X3; subst a; exists k, b, t; auto.
  - intros pdg pdg' pin pout L RS. assert (L' : length pdg' = length es') by (destruct RS as (-> & _); destruct HR as (-> & _); reflexivity).
    assert (N : (pin = None /\ pout = None) \/ (pin <> None \/ pout <> None)) by (destruct pin, pout; auto; right; [left|left|right]; discriminate).
    destruct N as [(-> & ->)|N]; [reflexivity|].
    destruct (C39_find_vertex es pdg pin pout L N) as (vs & E & S & H). destruct (C39_find_vertex es' pdg' pin pout L' N) as (ws & E' & S' & H'). rewrite E, E'. f_equal.
    apply sorted_eq; [assumption..|]. intros v. rewrite H, H'. unfold vertex. rewrite (re_src ps es es' HP HR), (re_dst ps es es' HP HR). apply and_iff_compat_l.
    assert (IN : forall z, (exists i a, nth_error es' i = Some (a, v) /\ nth_error pdg' i = Some z) <-> (exists i a, nth_error es i = Some (a, v) /\ nth_error pdg i = Some z)).
    { intros z. specialize (EQ Z pdg pdg' (fun e => snd e = v) (fun s => s = z) L RS).
      split; intros (i & a & Ee & Es); [destruct EQ as (EQ & _) | destruct EQ as (_ & EQ)].
      all: destruct EQ as (k & (c & d) & t & X1 & X2 & X3 & X4); [exists i, (a, v), z; auto|]; cbn in X3; subst d t; exists k, c; auto. }
    assert (OUT : forall z, (exists i a, nth_error es' i = Some (v, a) /\ nth_error pdg' i = Some z) <-> (exists i a, nth_error es i = Some (v, a) /\ nth_error pdg i = Some z)).
    { intros z. specialize (EQ Z pdg pdg' (fun e => fst e = v) (fun s => s = z) L RS).
      split; intros (i & a & Ee & Es); [destruct EQ as (EQ & _) | destruct EQ as (_ & EQ)].
      all: destruct EQ as (k & (c & d) & t & X1 & X2 & X3 & X4); [exists i, (v, a), z; auto|]; cbn in X3; subst c t; exists k, d; auto. }
    setoid_rewrite IN. setoid_rewrite OUT. reflexivity.
Qed.
Print Assumptions C162_vertices.

Example C162_case : let ps := [3; 0; 2; 1] in let es := [(0, 1); (1, 2); (1, 3); (5, 1)]%Z in let es' := [(5, 1); (0, 1); (1, 3); (1, 2)]%Z in
  Permutation ps (seq 0 (length es)) /\ reorders ps es es' /\ roots es = Ok [true; false; false; true] /\ roots es' = Ok [true; true; false; false].
Proof.
  repeat split; try reflexivity.
  - apply NoDup_Permutation; [repeat constructor; cbn; lia | apply seq_NoDup | intros x; rewrite in_seq; cbn; lia].
  - intros j i E. do 4 (destruct j as [|j]; [injection E as <-; reflexivity|]). destruct j; discriminate.
Qed.

(** * C163: descendants of descendants *)
(** A record [j] among the descendants of [v]; the descendants of [j] are among those of [v], when something starts where [j] ends. *)
Theorem C163_transitive_partial : forall es v m j a b m' k, vertex_descendants es v = Ok m -> src_of es v -> nth_error es j = Some (a, b) -> nth_error m j = Some true ->
  src_of es b -> vertex_descendants es b = Ok m' -> nth_error m' k = Some true -> nth_error m k = Some true.
Proof.
  intros es v m j a b m' k Em Hv Ej Mj Hb Em' Mk. destruct (C36_vertex_descendants es v) as (m0 & E0 & L0 & H0). assert (m0 = m) by congruence. subst m0.
  destruct (C36_vertex_descendants es b) as (m1 & E1 & L1 & H1). assert (m1 = m') by congruence. subst m1.
  destruct (nth_error es k) as [(c & d)|] eqn:Ek. 2:{ apply nth_error_None in Ek. exfalso. assert (k < length m') by (apply nth_error_Some; congruence). lia. }
  destruct (H0 j a b Ej) as (x & Ex & X & _). destruct (H0 k c d Ek) as (y & Ey & Y & _). destruct (H1 k c d Ek) as (z & Ez & Z1 & _).
  rewrite Ey. f_equal. apply (Y Hv). assert (R1 : reach es v a) by (apply (X Hv); congruence). assert (R2 : reach es b c) by (apply (Z1 Hb); congruence).
  assert (R3 : reach es v b) by (eapply R_step; [exact R1 | eapply nth_error_In, Ej]). clear - R3 R2. induction R2; [exact R3|]. eapply R_step; eassumption.
Qed.
Print Assumptions C163_transitive_partial.

(** At a vertex where nothing starts, they are the records ending there: all of them descend from [v] exactly when each starts at a vertex reached from [v]. *)
Theorem C163_sink_partial : forall es v m b m' k a, vertex_descendants es v = Ok m -> src_of es v -> ~ src_of es b -> vertex_descendants es b = Ok m' ->
  nth_error es k = Some (a, b) -> nth_error m' k = Some true /\ (nth_error m k = Some true <-> reach es v a).
Proof.
  intros es v m b m' k a Em Hv Hb Em' Ek. destruct (C36_vertex_descendants es v) as (m0 & E0 & L0 & H0). assert (m0 = m) by congruence. subst m0.
  destruct (C36_vertex_descendants es b) as (m1 & E1 & L1 & H1). assert (m1 = m') by congruence. subst m1.
  destruct (H0 k a b Ek) as (x & Ex & X & _). destruct (H1 k a b Ek) as (y & Ey & _ & Y). split; [rewrite Ey; f_equal; apply (Y Hb); reflexivity|].
  rewrite Ex, <- (X Hv). split; congruence.
Qed.
Print Assumptions C163_sink_partial.

(** Two records of unrelated origin end at the same vertex: the descendants of the first, read from its end, include the second. *)
Theorem C163_refuted : exists es v m j a b m' k, vertex_descendants es v = Ok m /\ src_of es v /\ nth_error es j = Some (a, b) /\ nth_error m j = Some true /\
  vertex_descendants es b = Ok m' /\ nth_error m' k = Some true /\ nth_error m k = Some false /\ ~ (exists c d, nth_error es k = Some (c, d) /\ reach es v c).
Proof.
  exists [(0, 1); (1, 9); (5, 9)]%Z, 1%Z, [false; true; false], 1, 1%Z, 9%Z, [false; true; true], 2. repeat split; try reflexivity.
  - exists 9%Z. cbn. auto.
  - intros (c & d & E & R). injection E as <- <-. assert (G : forall x, reach [(0, 1); (1, 9); (5, 9)]%Z 1%Z x -> x = 1%Z \/ x = 9%Z).
    { induction 1 as [|x y _ IH I]; [left; reflexivity|]. cbn in I. intuition (try congruence). }
    apply G in R. destruct R; discriminate.
Qed.
Print Assumptions C163_refuted.
