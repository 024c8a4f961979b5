(** C170: the order of the particles carries no meaning. *)
From Coq Require Import Permutation.
From Verif Require Import Prelude Keys SpecReal SpecDist SpecShapes SpecMatrix RealBase Kinem KinemProofs Par DeltaR DeltaRProofs P_DeltaR Shapes ShapesProofs P_Shapes P_IRC Matrix P_Matrix P_Equiv.
Open Scope R_scope.

(** Rows and columns of a square matrix reordered alike. *)
Definition reorders2 {A} (ps : list nat) (M M' : list (list A)) : Prop :=
  shape (length ps) (length ps) M' /\ forall i j a b, nth_error ps i = Some a -> nth_error ps j = Some b -> at2 M' i j = at2 M a b.

(** * Sums over the event *)

Lemma foldM_perm {A B} (f : A -> B -> res A) : (forall a x y, foldM f [x; y] a = foldM f [y; x] a) ->
  forall l l', Permutation l l' -> forall a, foldM f l a = foldM f l' a.
Proof.
  intros S l l' P. induction P as [|x l l' _ IH|x y l|l l' l'' _ IH1 _ IH2]; intros a.
  - reflexivity.
  - cbn [foldM]. destruct (f a x); cbn [bind]; [apply IH | reflexivity].
  - change (y :: x :: l) with ([y; x] ++ l). change (x :: y :: l) with ([x; y] ++ l). rewrite !foldM_app, S. reflexivity.
  - rewrite IH1. apply IH2.
Qed.

Lemma three_norm_err x y z e : three_norm x y z = Err e -> e = ZeroDivisionError.
Proof.
  unfold three_norm, fdiv. destruct (Req_EM_T _ 0); cbn [bind]; [intros E; injection E as <-; reflexivity | discriminate].
Qed.
Lemma thrust_swap a i s p q : foldM (thrust_step a i) [p; q] s = foldM (thrust_step a i) [q; p] s.
Proof.
  cbn [foldM]. unfold thrust_step. destruct (three_norm (px p) (py p) (pz p)) as [n|e] eqn:E; destruct (three_norm (px q) (py q) (pz q)) as [m|e'] eqn:E'; cbn [bind].
  - cbn [th_abs th_phi th_theta th_norm]. do 2 f_equal; ring.
  - reflexivity.
  - reflexivity.
  - apply three_norm_err in E, E'. congruence.
Qed.
(** The contribution of one particle to the spherocity sums. *)
Definition sph_term (phi theta : R) (p : mom) : res sacc := spherocity_step phi theta (SAcc 0 0 0 0) p.
Lemma sph_step_term phi theta s p : spherocity_step phi theta s p =
  (t <- sph_term phi theta p ;; Ok (SAcc (sp_cross s + sp_cross t) (sp_norm s + sp_norm t) (sp_theta s + sp_theta t) (sp_phi s + sp_phi t))).
Proof.
  unfold sph_term, spherocity_step. cbv zeta. destruct (three_norm (px p) (py p) (pz p)) as [n|e]; cbn [bind]; [|reflexivity].
  destruct (three_norm _ _ _) as [c|e]; cbn [bind]; [|reflexivity]. destruct (fdiv 1 c) as [r|e]; cbn [bind]; [|reflexivity].
  cbn [sp_cross sp_norm sp_theta sp_phi]. do 2 f_equal; ring.
Qed.
Lemma sph_term_err phi theta p e : sph_term phi theta p = Err e -> e = ZeroDivisionError.
Proof.
  unfold sph_term, spherocity_step. cbv zeta. destruct (three_norm (px p) (py p) (pz p)) as [n|e'] eqn:E; cbn [bind]; [|intros Q; assert (e' = e) by congruence; subst e'; eapply three_norm_err, E].
  match goal with |- context [three_norm ?a ?b ?d] => destruct (three_norm a b d) as [c|e'] eqn:E' end; cbn [bind]; [|intros Q; assert (e' = e) by congruence; subst e'; eapply three_norm_err, E'].
  unfold fdiv. destruct (Req_EM_T c 0); cbn [bind]; [congruence | intros Q; discriminate Q].
Qed.
Lemma sph_swap phi theta s p q : foldM (spherocity_step phi theta) [p; q] s = foldM (spherocity_step phi theta) [q; p] s.
Proof.
  cbn [foldM]. rewrite !(sph_step_term phi theta s). destruct (sph_term phi theta p) as [t|e] eqn:E; destruct (sph_term phi theta q) as [t'|e'] eqn:E'; cbn [bind].
  - rewrite !sph_step_term, E, E'. cbn [bind sp_cross sp_norm sp_theta sp_phi]. do 2 f_equal; ring.
  - rewrite sph_step_term, E'. reflexivity.
  - rewrite sph_step_term, E. reflexivity.
  - apply sph_term_err in E, E'. congruence.
Qed.

Lemma c_text_perm l l' : Permutation l l' -> c_textbook l = c_textbook l'.
Proof.
  intros P. unfold c_textbook, total_norm. rewrite (rsum_perm _ _ (Permutation_map norm3 P)). f_equal. f_equal.
  rewrite (rsum_perm _ _ (Permutation_map _ P)). apply rsum_map_ext. intros p _. apply rsum_perm, Permutation_map, P.
Qed.
Lemma c_parameter_perm l l' : Permutation l l' -> c_parameter l = c_parameter l'.
Proof.
  intros P. destruct C70_errors as (_ & CE). destruct (some_zero l) as [(z & Hz & E)|NZ].
  - rewrite (CE _ z Hz E). symmetry. apply (CE _ z); [apply (Permutation_in _ P Hz) | exact E].
  - destruct l as [|p l]; [apply Permutation_nil in P; subst; reflexivity|].
    assert (N' : l' <> []) by (intros ->; apply Permutation_sym, Permutation_nil in P; discriminate).
    assert (NZ' : forall z, In z l' -> p_sq z <> 0) by (intros z Hz; apply NZ, (Permutation_in _ (Permutation_sym P) Hz)).
    rewrite (proj1 (C70_c_parameter (p :: l) ltac:(discriminate) NZ)), (proj1 (C70_c_parameter l' N' NZ')), (c_text_perm _ _ P). reflexivity.
Qed.

Lemma eadd_swap a b c : eadd (eadd a b) c = eadd (eadd a c) b.
Proof. destruct a, b, c; cbn; try reflexivity. f_equal. ring. Qed.
Lemma esum_perm l l' : Permutation l l' -> esum l = esum l'.
Proof.
  unfold esum. generalize (Fin 0). intros a P. revert a. induction P as [|x l l' _ IH|x y l|l l' l'' _ IH1 _ IH2]; intros a; cbn [fold_left]; auto.
  - rewrite eadd_swap. reflexivity.
  - rewrite IH1. apply IH2.
Qed.

(** Event-level quantities — mass, event shapes with their gradients (errors included), centroids — are the same for the
    particles listed in any order. *)
Theorem C170_sums : forall l l', Permutation l l' ->
  combined_mass l NoWeight = combined_mass l' NoWeight /\
  c_parameter l = c_parameter l' /\
  (forall a i, thrust_with_grad a i l = thrust_with_grad a i l' /\ spherocity_with_grad a i l = spherocity_with_grad a i l') /\
  (forall best, thrust best l = thrust best l' /\ spherocity best l = spherocity best l') /\
  (forall rap, weighted_centroid rap l = weighted_centroid rap l').
Proof.
  intros l l' P. assert (TS : forall a i, thrust_with_grad a i l = thrust_with_grad a i l' /\ spherocity_with_grad a i l = spherocity_with_grad a i l').
  { intros a i. unfold thrust_with_grad, spherocity_with_grad. rewrite (foldM_perm _ (thrust_swap a i) l l' P), (foldM_perm _ (sph_swap a i) l l' P). auto. }
  split; [unfold combined_mass, weigh; cbn [bind]; rewrite (msum_perm _ _ P); reflexivity|]. split; [apply c_parameter_perm, P|]. split; [exact TS|]. split.
  - intros (a & i). unfold thrust, spherocity. cbn [fst snd]. destruct (TS a i) as (-> & ->). auto.
  - intros rap. unfold weighted_centroid. rewrite (rsum_perm _ _ (Permutation_map pt P)).
    rewrite (esum_perm _ _ (Permutation_map (fun p => emul (rap p) (pt p)) P)), (esum_perm _ _ (Permutation_map (fun p => emul (phi p) (pt p)) P)). reflexivity.
Qed.

Lemma map2_combine {A B C} (f : A -> B -> C) : forall (a : list A) (b : list B), map2 f a b = map (fun q => f (fst q) (snd q)) (combine a b).
Proof. induction a as [|x a IH]; intros [|y b]; cbn; try reflexivity. f_equal. apply IH. Qed.
(** Weighted masses: particles and their weights reordered together. *)
Theorem C170_weighted_mass : forall ws ws' l l', length ws = length l -> length ws' = length l' -> Permutation (combine ws l) (combine ws' l') ->
  combined_mass l (Table ws) = combined_mass l' (Table ws').
Proof.
  intros ws ws' l l' L L' P. unfold combined_mass, weigh. rewrite L, L', !Nat.eqb_refl. cbn [bind]. rewrite !map2_combine.
  rewrite (msum_perm _ _ (Permutation_map (fun q => wmul (fst q) (snd q)) P)). reflexivity.
Qed.

(** * Distances, clustering coefficients, adjacency matrices *)

(** Two lists reordered separately: the distance of two particles does not depend on where they stand. *)
Theorem C170_distances : forall same same' pseudo ps qs l l' r r' M M',
  Permutation ps (seq 0 (length l)) -> reorders ps l l' -> Permutation qs (seq 0 (length r)) -> reorders qs r r' ->
  (same = true -> r = l) -> (same' = true -> r' = l') -> delta_R_call same pseudo l r M -> delta_R_call same' pseudo l' r' M' ->
  forall i j a b, nth_error ps i = Some a -> nth_error qs j = Some b -> at2 M' i j = at2 M a b.
Proof.
  intros same same' pseudo ps qs l l' r r' M M' _ (_ & R1) _ (_ & R2) HS HS' H H' i j a b Ea Eb.
  apply call_result in H; [|exact HS]. apply call_result in H'; [|exact HS']. subst. rewrite !delta_R_at, (R1 i a Ea), (R2 j b Eb). reflexivity.
Qed.

Lemma count_perm {A} (f : A -> bool) l l' : Permutation l l' -> length (filter f l) = length (filter f l').
Proof. induction 1 as [|x l l' _ IH|x y l|]; cbn; try destruct (f x); try destruct (f y); cbn; congruence. Qed.

Lemma filter_perm {A} (f : A -> bool) l l' : Permutation l l' -> Permutation (filter f l) (filter f l').
Proof.
  induction 1 as [|x l l' _ IH|x y l|]; cbn [filter].
  - apply perm_nil.
  - destruct (f x); [apply perm_skip|]; exact IH.
  - destruct (f x), (f y); try apply perm_swap; apply Permutation_refl.
  - eapply Permutation_trans; eassumption.
Qed.

Section Coefficients.
  Variables (n : nat) (ps : list nat) (near near' : nat -> nat -> bool).
  Hypothesis (HP : Permutation ps (seq 0 n)).
  Hypothesis (HN : forall i j a b, nth_error ps i = Some a -> nth_error ps j = Some b -> near' i j = near a b).
  Let at_ (i : nat) : nat := nth i ps O.
  Lemma ps_n : length ps = n. Proof using HP. rewrite (Permutation_length HP). apply seq_length. Qed.
  Lemma at_some i : (i < n)%nat -> nth_error ps i = Some (at_ i).
  Proof using HP. intros H. destruct (nth_error ps i) as [a|] eqn:E; [unfold at_; rewrite (nth_error_nth _ _ O E); reflexivity | apply nth_error_None in E; rewrite ps_n in E; lia]. Qed.
  Lemma at_inj i j : (i < n)%nat -> (j < n)%nat -> at_ i = at_ j -> i = j.
  Proof using HP.
    intros Hi Hj E. assert (ND : NoDup ps) by (eapply Permutation_NoDup; [symmetry; exact HP | apply seq_NoDup]).
    rewrite NoDup_nth_error in ND. apply ND; [rewrite ps_n; exact Hi|]. rewrite !at_some by assumption. congruence.
  Qed.
  Lemma map_at : map at_ (seq 0 n) = ps.
  Proof using HP.
    apply nth_error_ext. intros k. rewrite nth_error_map', seq_nth_error. destruct (Nat.ltb_spec k n) as [H|H].
    - cbn. symmetry. apply at_some, H.
    - cbn. symmetry. apply nth_error_None. rewrite ps_n. exact H.
  Qed.
  Lemma nb_perm i : (i < n)%nat -> Permutation (map at_ (neighbours n near' i)) (neighbours n near (at_ i)).
  Proof using HP HN.
    intros Hi. unfold neighbours.
    assert (E : map at_ (filter (fun j => (negb (Nat.eqb i j) && near' i j)%bool) (seq 0 n)) = filter (fun b => (negb (Nat.eqb (at_ i) b) && near (at_ i) b)%bool) (map at_ (seq 0 n))).
    { assert (G : forall s, (forall j, In j s -> (j < n)%nat) -> map at_ (filter (fun j => (negb (Nat.eqb i j) && near' i j)%bool) s) = filter (fun b => (negb (Nat.eqb (at_ i) b) && near (at_ i) b)%bool) (map at_ s)).
      { induction s as [|j s IH]; intros HS; [reflexivity|]. cbn [map filter]. rewrite <- IH by (intros; apply HS; right; assumption). assert (Hj : (j < n)%nat) by (apply HS; left; reflexivity).
        rewrite (HN i j _ _ (at_some i Hi) (at_some j Hj)). assert (Q : Nat.eqb i j = Nat.eqb (at_ i) (at_ j)).
        { destruct (Nat.eqb_spec i j) as [->|N]; [symmetry; apply Nat.eqb_refl|]. symmetry. apply Nat.eqb_neq. intros F. apply N, at_inj; assumption. }
        rewrite Q. destruct (negb (Nat.eqb (at_ i) (at_ j)) && near (at_ i) (at_ j))%bool; reflexivity. }
      apply G. intros j Hj. apply in_seq in Hj. lia. }
    rewrite E, map_at. apply filter_perm, HP.
  Qed.
End Coefficients.

Lemma filter_length_map {A B} (g : A -> B) (f : B -> bool) l : length (filter f (map g l)) = length (filter (fun x => f (g x)) l).
Proof. induction l as [|x l IH]; [reflexivity|]. cbn. destruct (f (g x)); cbn; congruence. Qed.
Lemma prod_map {A B} (g : A -> B) (l r : list A) : list_prod (map g l) (map g r) = map (fun q => (g (fst q), g (snd q))) (list_prod l r).
Proof. induction l as [|x l IH]; [reflexivity|]. cbn. rewrite map_app, IH, !map_map. reflexivity. Qed.
Lemma prod_perm {A} (a a' b b' : list A) : Permutation a a' -> Permutation b b' -> Permutation (list_prod a b) (list_prod a' b').
Proof.
  intros P Q. transitivity (list_prod a' b).
  - induction P as [|x l l' _ IH|x y l|]; cbn; auto.
    + apply Permutation_app_head, IH.
    + rewrite !app_assoc. apply Permutation_app_tail, Permutation_app_comm.
    + etransitivity; eassumption.
  - clear P. induction a' as [|x l IH]; cbn; auto. apply Permutation_app; [apply Permutation_map, Q | exact IH].
Qed.

Lemma coeff_perm n ps near near' i c : Permutation ps (seq 0 n) ->
  (forall i j a b, nth_error ps i = Some a -> nth_error ps j = Some b -> near' i j = near a b) -> (i < n)%nat ->
  coefficient n near (nth i ps O) c -> coefficient n near' i c.
Proof.
  intros HP HN Hi. unfold coefficient. cbv zeta. pose proof (nb_perm n ps near near' HP HN i Hi) as P. cbv beta in P.
  assert (L : length (neighbours n near' i) = length (neighbours n near (nth i ps O))) by (rewrite <- (Permutation_length P), map_length; reflexivity).
  rewrite L. destruct (Nat.ltb _ 2); [auto|]. intros E. rewrite E. f_equal. unfold linked_pairs.
  rewrite <- (count_perm _ _ _ (prod_perm _ _ _ _ P P)), prod_map, filter_length_map.
  assert (HB : forall j, In j (neighbours n near' i) -> (j < n)%nat) by (intros j Hj; unfold neighbours in Hj; apply filter_In in Hj as (Hj & _); apply in_seq in Hj; lia).
  clear - HP HN HB. assert (HB2 : forall q, In q (list_prod (neighbours n near' i) (neighbours n near' i)) -> (fst q < n)%nat /\ (snd q < n)%nat)
    by (intros (x & y) Hq; apply in_prod_iff in Hq as (? & ?); split; apply HB; assumption).
  revert HB2. generalize (list_prod (neighbours n near' i) (neighbours n near' i)). intros qs. induction qs as [|(x & y) qs IH]; intros H; [reflexivity|].
  cbn [filter fst snd]. destruct (H (x, y) (or_introl eq_refl)) as (Hx & Hy). cbn [fst snd] in Hx, Hy.
  rewrite <- (HN x y _ _ (at_some n ps HP x Hx) (at_some n ps HP y Hy)).
  assert (Q : Nat.eqb x y = Nat.eqb (nth x ps O) (nth y ps O)).
  { destruct (Nat.eqb_spec x y) as [->|N]; [symmetry; apply Nat.eqb_refl|]. symmetry. apply Nat.eqb_neq. intros F. apply N. apply (at_inj n ps HP); assumption. }
  rewrite <- Q. specialize (IH (fun q I => H q (or_intror I))). cbn [fst snd] in IH. destruct (negb (Nat.eqb x y) && near' x y)%bool; cbn [length]; rewrite IH; reflexivity.
Qed.

Lemma coeff_det n near i c c' : coefficient n near i c -> coefficient n near i c' -> c = c'.
Proof.
  unfold coefficient. cbv zeta. destruct (Nat.ltb_spec (length (neighbours n near i)) 2) as [H|H]; [congruence|]. intros E E'. rewrite <- E' in E.
  apply Rmult_eq_reg_r in E; [exact E|]. apply le_INR in H. change (INR 2) with 2 in H. assert (0 < INR (length (neighbours n near i)) * (INR (length (neighbours n near i)) - 1)) by (apply Rmult_lt_0_compat; lra). lra.
Qed.
Lemma coeff_ext n near near' i c : (i < n)%nat -> (forall a b, (a < n)%nat -> (b < n)%nat -> near a b = near' a b) -> coefficient n near i c -> coefficient n near' i c.
Proof.
  intros Hi H HC. apply (coeff_perm n (seq 0 n) near near' i c (Permutation_refl _)); [|exact Hi | rewrite seq_nth by exact Hi; exact HC].
  intros x y a b Ha Hb. rewrite seq_nth_error in Ha, Hb. destruct (Nat.ltb_spec x n); [|discriminate]. destruct (Nat.ltb_spec y n); [|discriminate].
  injection Ha as <-. injection Hb as <-. symmetry. apply H; assumption.
Qed.

(** Clustering coefficients follow the particles. *)
Theorem C170_coefficients : forall pseudo ps l l' radius out out', Permutation ps (seq 0 (length l)) -> reorders ps l l' ->
  cluster_coeff_distbn pseudo l radius out -> cluster_coeff_distbn pseudo l' radius out' -> reorders ps out out'.
Proof.
  intros pseudo ps l l' radius out out' HP HR H H'. pose proof (reorder_len ps l l' HP HR) as LL. pose proof (ps_len ps l HP) as LP.
  destruct (C76_cluster_coeff _ _ _ _ H) as (M & HM & LO & HC). destruct (C76_cluster_coeff _ _ _ _ H') as (M' & HM' & LO' & HC'). rewrite LL in *.
  split; [congruence|]. intros j i Ei.
  assert (Hj : (j < length l)%nat) by (rewrite <- LP; apply nth_error_Some; congruence).
  assert (Hi : (i < length l)%nat) by (apply nth_error_In, (Permutation_in _ HP), in_seq in Ei; lia).
  destruct (HC i Hi) as (c & Ec & _ & near & CO & NE). destruct (HC' j Hj) as (c' & Ec' & _ & near' & CO' & NE').
  rewrite Ec, Ec'. f_equal. apply (coeff_det (length l) near' j); [exact CO'|].
  apply (coeff_perm (length l) ps near near' j c HP); [|exact Hj | rewrite (nth_error_nth _ _ O Ei); exact CO].
  intros x y a b Ea Eb. assert (Ha : (a < length l)%nat) by (apply nth_error_In, (Permutation_in _ HP), in_seq in Ea; lia). assert (Hb : (b < length l)%nat) by (apply nth_error_In, (Permutation_in _ HP), in_seq in Eb; lia).
  assert (Hx : (x < length l)%nat) by (rewrite <- LP; apply nth_error_Some; congruence). assert (Hy : (y < length l)%nat) by (rewrite <- LP; apply nth_error_Some; congruence).
  pose proof (C170_distances true true pseudo ps ps l l' l l' M M' HP HR HP HR (fun _ => eq_refl) (fun _ => eq_refl) HM HM' x y a b Ea Eb) as D.
  specialize (NE a b Ha Hb). specialize (NE' x y Hx Hy). rewrite D in NE'. destruct (near a b), (near' x y); try reflexivity; [|symmetry]; [apply NE', NE | apply NE, NE']; reflexivity.
Qed.

(** A matrix and its reordering have the same entries. *)
Lemma side_dec mode cut x : on_side mode cut x \/ ~ on_side mode cut x. Proof. apply Classical_Prop.classic. Qed.

(** cut_adj: same outcome on the reordered matrix, reordered. *)
Theorem C170_cut_adj : forall ps M M' cut mode self_loop weighted, Permutation ps (seq 0 (length M)) -> shape (length M) (length M) M -> reorders2 ps M M' ->
  match cut_adj M cut mode self_loop weighted, cut_adj M' cut mode self_loop weighted with
  | Ok (Bools B), Ok (Bools B') => reorders2 ps B B'
  | Ok (Floats A), Ok (Floats A') => reorders2 ps A A'
  | Err e, Err e' => e = e'
  | _, _ => False
  end.
Proof.
  intros ps M M' cut mode sl w HP HM (HM' & HR). set (n := length M) in *. assert (LP : length ps = n) by (rewrite (Permutation_length HP); apply seq_length). rewrite LP in HM'.
  assert (B : forall i a, nth_error ps i = Some a -> (i < n)%nat /\ (a < n)%nat).
  { intros i a E. split; [rewrite <- LP; apply nth_error_Some; congruence | apply nth_error_In, (Permutation_in _ HP), in_seq in E; lia]. }
  assert (INJ : forall i j a, nth_error ps i = Some a -> nth_error ps j = Some a -> i = j).
  { intros i j a Ei Ej. assert (ND : NoDup ps) by (eapply Permutation_NoDup; [symmetry; exact HP | apply seq_NoDup]). rewrite NoDup_nth_error in ND. apply ND; [apply nth_error_Some; congruence | congruence]. }
  destruct (Classical_Prop.classic ((mode <> "max"%string /\ mode <> "min"%string) \/ w = FOther)) as [E|E].
  { rewrite (proj2 (C81_errors M cut mode sl w) E), (proj2 (C81_errors M' cut mode sl w) E). reflexivity. }
  assert (Hmode : mode = "max"%string \/ mode = "min"%string) by (destruct (string_dec mode "max"); [auto|]; destruct (string_dec mode "min"); [auto|]; exfalso; apply E; auto).
  destruct w; [| |exfalso; apply E; auto].
  - destruct (C81_weighted n M cut mode sl HM Hmode) as (A & -> & SA & OA & DA). destruct (C81_weighted n M' cut mode sl HM' Hmode) as (A' & -> & SA' & OA' & DA').
    split; [rewrite LP; exact SA'|]. intros i j a b Ea Eb. destruct (B i a Ea) as (Hi & Ha). destruct (B j b Eb) as (Hj & Hb). destruct (Nat.eq_dec i j) as [->|N].
    + assert (a = b) by congruence. subst. rewrite DA, DA' by assumption. reflexivity.
    + assert (N' : a <> b) by (intros ->; apply N; eapply INJ; eassumption). destruct (at2_shape n n M a b HM Ha Hb) as (x & Ex). assert (Ex' : at2 M' i j = Some x) by (rewrite (HR i j a b Ea Eb); exact Ex).
      destruct (OA a b x N' Ex) as (O1 & O2). destruct (OA' i j x N Ex') as (O1' & O2'). destruct (side_dec mode cut x) as [S|S]; [rewrite O1, O1' by exact S | rewrite O2, O2' by exact S]; reflexivity.
  - destruct (C81_unweighted n M cut mode sl HM Hmode) as (A & -> & SA & OA & DA). destruct (C81_unweighted n M' cut mode sl HM' Hmode) as (A' & -> & SA' & OA' & DA').
    split; [rewrite LP; exact SA'|]. intros i j a b Ea Eb. destruct (B i a Ea) as (Hi & Ha). destruct (B j b Eb) as (Hj & Hb). destruct (Nat.eq_dec i j) as [->|N].
    + assert (a = b) by congruence. subst. rewrite DA, DA' by assumption. reflexivity.
    + assert (N' : a <> b) by (intros ->; apply N; eapply INJ; eassumption). destruct (at2_shape n n M a b HM Ha Hb) as (x & Ex). assert (Ex' : at2 M' i j = Some x) by (rewrite (HR i j a b Ea Eb); exact Ex).
      destruct (OA a b x N' Ex) as (v & -> & O1). destruct (OA' i j x N Ex') as (v' & -> & O1'). f_equal. destruct v, v'; try reflexivity; [|symmetry]; [apply O1', O1 | apply O1, O1']; reflexivity.
Qed.

(** knn_adj without ties: the outcome follows the particles. *)
Definition no_ties (n : nat) (M : list (list ext)) : Prop :=
  forall i i' j x y, (i < n)%nat -> (i' < n)%nat -> i <> i' -> at2 M i j = Some x -> at2 M i' j = Some y -> ~ (sort_le x y /\ sort_le y x).

Lemma nearest_unique n k f a b : (forall i i', (i < n)%nat -> (i' < n)%nat -> i <> i' -> ~ (sort_le (f i) (f i') /\ sort_le (f i') (f i))) ->
  nearest n k f a -> nearest n k f b -> forall i, In i a -> In i b.
Proof.
  intros HT (NA & LA & BA & OA) (NB & LB & BB & OB) i Hi. destruct (in_dec Nat.eq_dec i b) as [|N]; [assumption|]. exfalso.
  assert (X : exists i', In i' b /\ ~ In i' a).
  { destruct (Classical_Prop.classic (exists i', In i' b /\ ~ In i' a)) as [X|X]; [exact X|]. exfalso.
    assert (I : incl b a) by (intros x Hx; destruct (in_dec Nat.eq_dec x a); [assumption | exfalso; apply X; eauto]).
    apply N. assert (LE : (length a <= length b)%nat) by lia. exact (NoDup_length_incl NB LE I i Hi). }
  destruct X as (i' & Hb & Ha). apply (HT i i'); [apply BA, Hi | apply BB, Hb | intros ->; contradiction|].
  split; [apply OA; auto | apply OB; auto].
Qed.

Theorem C170_knn_adj : forall ps M M' k self_loop weighted row dt out out', Permutation ps (seq 0 (length M)) -> shape (length M) (length M) M -> reorders2 ps M M' ->
  no_ties (length M) M -> weighted <> FTrue \/ dt <> DOther ->
  (0 <= match self_loop with FFalse => k + 1 | _ => k end < Z.of_nat (length M))%Z ->
  knn_adj M k self_loop weighted row dt out -> knn_adj M' k self_loop weighted row dt out' ->
  match out, out' with
  | Ok (Bools B), Ok (Bools B') => reorders2 ps B B'
  | Ok (Floats A), Ok (Floats A') => reorders2 ps A A'
  | _, _ => False
  end.
Proof.
  intros ps M M' k sl w row dt out out' HP HM (HM' & HR) HT HD Hk H H'. set (n := length M) in *. assert (LP : length ps = n) by (rewrite (Permutation_length HP); apply seq_length). rewrite LP in HM'.
  assert (B : forall i a, nth_error ps i = Some a -> (i < n)%nat /\ (a < n)%nat).
  { intros i a E. split; [rewrite <- LP; apply nth_error_Some; congruence | apply nth_error_In, (Permutation_in _ HP), in_seq in E; lia]. }
  assert (INJ : forall i j a, nth_error ps i = Some a -> nth_error ps j = Some a -> i = j).
  { intros i j a Ei Ej. assert (ND : NoDup ps) by (eapply Permutation_NoDup; [symmetry; exact HP | apply seq_NoDup]). rewrite NoDup_nth_error in ND. apply ND; [apply nth_error_Some; congruence | congruence]. }
  destruct (knn_raw n M k sl w row dt out HM HD Hk H) as (nb & N1 & R1). destruct (knn_raw n M' k sl w row dt out' HM' HD Hk H') as (nb' & N2 & R2). cbv zeta in R1, R2.
  set (kk := Z.to_nat (match sl with FFalse => (k + 1)%Z | _ => k end)) in *.
  assert (EN : forall i j a b, nth_error ps i = Some a -> nth_error ps j = Some b -> entry M' i j = entry M a b) by (intros i j a b Ea Eb; unfold entry; rewrite (HR i j a b Ea Eb); reflexivity).
  assert (NBR : forall i j a b, nth_error ps i = Some a -> nth_error ps j = Some b -> (In i (nb' j) <-> In a (nb b))).
  { intros i j a b Ea Eb. destruct (B i a Ea) as (Hi & Ha). destruct (B j b Eb) as (Hj & Hb).
    assert (X : nearest n kk (fun x => entry M x b) (map (fun x => nth x ps O) (nb' j))).
    { destruct (N2 j Hj) as (A1 & A2 & A3 & A4). assert (AT : forall x, (x < n)%nat -> nth_error ps x = Some (nth x ps O)) by (intros x Hx; apply at_some with (n := n); assumption).
      split; [|split; [|split]].
      - clear - A1 A3 AT INJ. induction (nb' j) as [|x s IH]; [constructor|]. inversion A1; subst. cbn. constructor; [|apply IH; [assumption | intros; apply A3; right; assumption]].
        intros F. apply in_map_iff in F as (y & Ey & Hy). apply H1. rewrite (INJ x y (nth x ps O)); [exact Hy | apply AT, A3; left; reflexivity | rewrite <- Ey; apply AT, A3; right; exact Hy].
      - rewrite map_length. exact A2.
      - intros x Hx. apply in_map_iff in Hx as (y & <- & Hy). apply (B y), AT, A3, Hy.
      - intros x x' Hx Hx' Hn. apply in_map_iff in Hx as (y & <- & Hy).
        assert (Q : In x' ps) by (apply (Permutation_in _ (Permutation_sym HP)), in_seq; lia). apply In_nth_error in Q as (y' & Ey').
        rewrite <- (EN y j _ b (AT y (A3 y Hy)) Eb), <- (EN y' j _ b Ey' Eb). apply A4; [exact Hy | apply (B y' x' Ey')|].
        intros F. apply Hn. apply in_map_iff. exists y'. split; [apply nth_error_nth, Ey' | exact F]. }
    assert (TI : forall i i', (i < n)%nat -> (i' < n)%nat -> i <> i' -> ~ (sort_le (entry M i b) (entry M i' b) /\ sort_le (entry M i' b) (entry M i b))).
    { intros x x' Hx Hx' N. destruct (at2_shape n n M x b HM Hx Hb) as (v & Ev). destruct (at2_shape n n M x' b HM Hx' Hb) as (v' & Ev'). unfold entry. rewrite Ev, Ev'. apply (HT x x' b); assumption. }
    pose proof (nearest_unique n kk _ _ _ TI X (N1 b Hb) a) as I1. pose proof (nearest_unique n kk _ _ _ TI (N1 b Hb) X a) as I2. split.
    - intros Hin. apply I1, in_map_iff. exists i. split; [apply nth_error_nth, Ea | exact Hin].
    - intros Hin. apply I2, in_map_iff in Hin as (y & Ey & Hy). rewrite (INJ i y a Ea); [exact Hy|]. rewrite <- Ey. apply (at_some n ps HP). apply (proj1 (proj2 (proj2 (N2 j Hj)))), Hy. }
  assert (FIN : forall (A : Type) (z : A) (f f' : nat -> nat -> A) (G G' : list (list A)), shape n n G' ->
    (forall i j, (i < n)%nat -> (j < n)%nat -> link row G i j = Some (match sl with FFalse => if Nat.eqb i j then z else if in_dec Nat.eq_dec i (nb j) then f i j else z | _ => if in_dec Nat.eq_dec i (nb j) then f i j else z end)) ->
    (forall i j, (i < n)%nat -> (j < n)%nat -> link row G' i j = Some (match sl with FFalse => if Nat.eqb i j then z else if in_dec Nat.eq_dec i (nb' j) then f' i j else z | _ => if in_dec Nat.eq_dec i (nb' j) then f' i j else z end)) ->
    (forall i j a b, nth_error ps i = Some a -> nth_error ps j = Some b -> f' i j = f a b) -> reorders2 ps G G').
  { intros A z f f' G G' SG' L L' FF. split; [rewrite LP; exact SG'|]. assert (K : forall i j a b, nth_error ps i = Some a -> nth_error ps j = Some b -> link row G' i j = link row G a b).
    { intros i j a b Ea Eb. destruct (B i a Ea) as (Hi & Ha). destruct (B j b Eb) as (Hj & Hb). rewrite L, L' by assumption. rewrite (FF i j a b Ea Eb). pose proof (NBR i j a b Ea Eb) as Q.
      assert (Q2 : Nat.eqb i j = Nat.eqb a b). { destruct (Nat.eqb_spec i j) as [->|N]; [assert (a = b) by congruence; subst; symmetry; apply Nat.eqb_refl|]. symmetry. apply Nat.eqb_neq. intros ->. apply N. eapply INJ; eassumption. }
      rewrite Q2. destruct (in_dec Nat.eq_dec i (nb' j)), (in_dec Nat.eq_dec a (nb b)); try reflexivity; exfalso; tauto. }
    intros i j a b Ea Eb. unfold link in K. destruct row; [apply K; assumption | apply (K j i b a); assumption | apply K; assumption]. }
  destruct w.
  - destruct R1 as (G & -> & S1 & L1). destruct R2 as (G' & -> & S2 & L2). exact (FIN ext (Fin 0) (entry M) (entry M') G G' S2 L1 L2 EN).
  - destruct R1 as (G & -> & S1 & L1). destruct R2 as (G' & -> & S2 & L2). exact (FIN bool false (fun _ _ => true) (fun _ _ => true) G G' S2 L1 L2 (fun _ _ _ _ _ _ => eq_refl)).
  - destruct R1 as (G & -> & S1 & L1). destruct R2 as (G' & -> & S2 & L2). exact (FIN bool false (fun _ _ => true) (fun _ _ => true) G G' S2 L1 L2 (fun _ _ _ _ _ _ => eq_refl)).
Qed.

(** The hypotheses are met: three particles turned by one place, a matrix without ties. *)
Example C170_case : Permutation [1; 2; 0]%nat (seq 0 3) /\ reorders [1; 2; 0]%nat [10; 20; 30]%Z [20; 30; 10]%Z /\
  reorders2 [1; 2; 0]%nat [[Fin 0; Fin 1; Fin 2]; [Fin 1; Fin 0; Fin 3]; [Fin 2; Fin 3; Fin 0]] [[Fin 0; Fin 3; Fin 1]; [Fin 3; Fin 0; Fin 2]; [Fin 1; Fin 2; Fin 0]] /\
  no_ties 3 [[Fin 0; Fin 1; Fin 2]; [Fin 1; Fin 0; Fin 3]; [Fin 2; Fin 3; Fin 0]].
Proof.
  split; [|split; [|split]].
  - change (seq 0 3) with [0; 1; 2]%nat. apply Permutation_sym, (Permutation_cons_append [1; 2]%nat 0%nat).
  - split; [reflexivity|]. intros [|[|[|j]]] i E; cbn in E; try (injection E as <-; reflexivity). destruct j; discriminate.
  - split; [split; [reflexivity | repeat constructor]|]. intros [|[|[|i]]] [|[|[|j]]] a b Ea Eb; cbn in Ea, Eb; try (injection Ea as <-; injection Eb as <-; reflexivity);
      try (destruct i; discriminate); destruct j; discriminate.
  - intros [|[|[|i]]] [|[|[|i']]] [|[|[|j]]] x y Hi Hi' N Ex Ey; try lia; try contradiction; cbn in Ex, Ey; try (injection Ex as <-; injection Ey as <-; cbn; lra); destruct j; discriminate.
Qed.

Print Assumptions C170_sums.
Print Assumptions C170_weighted_mass.
Print Assumptions C170_distances.
Print Assumptions C170_coefficients.
Print Assumptions C170_cut_adj.
Print Assumptions C170_knn_adj.
