(** C247: mirrored events in IEEE doubles. *)
From Coq Require Import ZArith Reals List Bool Lia Permutation.
From Flocq Require Import Core BinarySingleNaN.
From Verif Require Import Prelude SpecIEEE Matrix Floats FloatBase FloatOps P_Float Floats3 Floats6 Floats10 Floats12 Floats17.
From Verif Require Import Floats18.
Import ListNotations.

(** * Vocabulary *)
(** The mirror images of a momentum (px, py, pz, E) in the planes x = 0, y = 0, z = 0 and x = y. *)
Definition mirror_x (p : fmom) : fmom := (fneg (mx p), my p, mz p, me p).
Definition mirror_y (p : fmom) : fmom := (mx p, fneg (my p), mz p, me p).
Definition mirror_z (p : fmom) : fmom := (mx p, my p, fneg (mz p), me p).
Definition swap_xy (p : fmom) : fmom := (my p, mx p, mz p, me p).
(** What is asked of the library: hypot is even in both arguments and symmetric; atan2 is odd in its first, arctanh in its only one. *)
Definition symmetric_hypot (hypot : f64 -> f64 -> f64) : Prop :=
  forall a b, hypot (fneg a) b = hypot a b /\ hypot a (fneg b) = hypot a b /\ hypot a b = hypot b a.
Definition odd_atan2 (atan2 : f64 -> f64 -> f64) : Prop := forall y x, atan2 (fneg y) x = fneg (atan2 y x).
Definition odd_fun (f : f64 -> f64) : Prop := forall x, f (fneg x) = fneg (f x).

Lemma fdiv_neg_l : forall x y, fdiv (fneg x) y = fneg (fdiv x y).
Proof.
  intros x y. apply B2SF_inj. rewrite b2sf_neg.
  destruct x as [s|s| |s m e Hb], y as [t|t| |t n f Hc]; cbn; rewrite ?negb_xorb_l; try reflexivity.
  unfold fdiv, Bdiv, fneg, Bopp. rewrite !B2SF_SF2B. destruct (SpecFloat.SFdiv_core_binary 53 1024 (Z.pos m) e (Z.pos n) f) as [[mz ez] lz].
  rewrite <- round_aux_neg, negb_xorb_l. reflexivity.
Qed.
Lemma fadd_negs : forall x y, fadd (fneg x) (fneg y) = fneg (fadd x y) \/ fadd (fneg x) (fneg y) = fadd x y.
Proof.
  intros x y. rewrite <- !fsub_add. assert (E : fadd x y = fsub y (fneg x)) by (rewrite fsub_add, fneg_neg; apply fadd_comm). rewrite E. apply fsub_swap.
Qed.

(** * The coordinates *)
Theorem C247_coordinates : forall hypot atan2 arctanh log zero_tol, symmetric_hypot hypot -> odd_atan2 atan2 -> odd_fun arctanh -> forall x y z e,
  (** pseudorapidity: negated by the mirror z = 0, the same double in the other three *)
  f_eta hypot arctanh x y (fneg z) = fneg (f_eta hypot arctanh x y z) /\ f_eta hypot arctanh (fneg x) y z = f_eta hypot arctanh x y z /\
  f_eta hypot arctanh x (fneg y) z = f_eta hypot arctanh x y z /\ f_eta hypot arctanh y x z = f_eta hypot arctanh x y z /\
  (** rapidity *)
  (is_nan z = false -> f_rapidity log zero_tol e (fneg z) = fneg (f_rapidity log zero_tol e z)) /\
  (** azimuth *)
  f_phi hypot atan2 zero_tol x (fneg y) = fneg (f_phi hypot atan2 zero_tol x y) /\
  (** mass *)
  f_mass hypot x y (fneg z) e = f_mass hypot x y z e /\ f_mass hypot (fneg x) y z e = f_mass hypot x y z e /\
  f_mass hypot x (fneg y) z e = f_mass hypot x y z e /\ f_mass hypot y x z e = f_mass hypot x y z e.
Proof.
  intros hypot atan2 arctanh log zt HH HA HO x y z e.
  assert (H1 : forall a b, hypot (fneg a) b = hypot a b) by apply HH. assert (H2 : forall a b, hypot a (fneg b) = hypot a b) by apply HH.
  assert (H3 : forall a b, hypot a b = hypot b a) by apply HH.
  unfold f_eta, f_cos, f_phi, f_mass. rewrite !H1, !H2, (H3 y x).
  split; [rewrite fdiv_neg_l; apply HO|]. split; [reflexivity|]. split; [reflexivity|]. split; [reflexivity|].
  split; [intros N; apply C139_odd, N|]. split; [|repeat split]. destruct (fle _ _); [reflexivity | apply HA].
Qed.

(** * Distances *)
Definition mirror_axis (f : fmom -> fmom) : Prop := f = mirror_x \/ f = mirror_y \/ f = mirror_z \/ f = swap_xy.
Lemma im_negs (atan2 : f64 -> f64 -> f64) (hypot : f64 -> f64 -> f64) : symmetric_hypot hypot -> odd_atan2 atan2 -> forall d a b re,
  hypot d (atan2 (fadd (fneg a) (fneg b)) re) = hypot d (atan2 (fadd a b) re).
Proof. intros HH HA d a b re. destruct (fadd_negs a b) as [-> | ->]; [rewrite HA; apply HH | reflexivity]. Qed.
Lemma drap_negs (hypot : f64 -> f64 -> f64) : symmetric_hypot hypot -> forall a b d,
  let z x := if is_nan x then fzero else x in hypot (z (fsub (fneg a) (fneg b))) d = hypot (z (fsub a b)) d.
Proof.
  intros HH a b d z. unfold z. rewrite !(fsub_add), fneg_neg. destruct (fadd_negs a (fneg b)) as [E|E]; rewrite fneg_neg in E; rewrite E; [|reflexivity].
  rewrite fneg_nan. destruct (is_nan _); [reflexivity | apply HH].
Qed.
Lemma delta_mirror hypot atan2 arctanh f p q : symmetric_hypot hypot -> odd_atan2 atan2 -> odd_fun arctanh -> mirror_axis f ->
  let eta p := f_eta hypot arctanh (mx p) (my p) (mz p) in
  f_delta hypot atan2 (eta (f p)) (eta (f q)) (mx (f p), my (f p)) (mx (f q), my (f q)) = f_delta hypot atan2 (eta p) (eta q) (mx p, my p) (mx q, my q).
Proof.
  intros HH HA HO M eta. destruct p as [[[x1 y1] z1] e1], q as [[[x2 y2] z2] e2].
  destruct (C247_coordinates hypot atan2 arctanh (fun x => x) fzero HH HA HO x1 y1 z1 e1) as (E1 & E2 & E3 & E4 & _).
  destruct (C247_coordinates hypot atan2 arctanh (fun x => x) fzero HH HA HO x2 y2 z2 e2) as (G1 & G2 & G3 & G4 & _).
  assert (NL : forall a b, fmul (fneg a) b = fneg (fmul a b)) by (intros a b; rewrite (fmul_comm (fneg a) b), fmul_neg_r, (fmul_comm b a); reflexivity).
  unfold eta. destruct M as [-> | [-> | [-> | ->]]]; unfold mirror_x, mirror_y, mirror_z, swap_xy; cbn [mx my mz me fst snd]; rewrite ?E1, ?E2, ?E3, ?E4, ?G1, ?G2, ?G3, ?G4;
    unfold f_delta, cmul, conj; cbn [fst snd].
  - rewrite !NL, !fmul_neg_r, fneg_neg. rewrite <- (im_negs atan2 hypot HH HA _ (fneg (fmul x1 y2)) (fmul y1 x2)). rewrite !fneg_neg. reflexivity.
  - rewrite !NL, ?fmul_neg_r, ?NL, ?fneg_neg. rewrite <- (im_negs atan2 hypot HH HA _ (fneg (fmul x1 y2)) (fmul y1 x2)). rewrite !fneg_neg. reflexivity.
  - apply (drap_negs hypot HH).
  - rewrite !fmul_neg_r, !fsub_add, !fneg_neg. rewrite (fadd_comm (fmul y1 y2)). rewrite <- (im_negs atan2 hypot HH HA _ (fneg (fmul y1 x2)) (fmul x1 y2)). rewrite !fneg_neg.
    rewrite (fadd_comm (fmul y1 x2)). reflexivity.
Qed.

(** The affinity matrix of a mirrored event is the same array of doubles. *)
Theorem C247_distances : forall hypot atan2 arctanh f pmu, symmetric_hypot hypot -> odd_atan2 atan2 -> odd_fun arctanh -> mirror_axis f ->
  f_affinity hypot atan2 arctanh (map f pmu) = f_affinity hypot atan2 arctanh pmu.
Proof.
  intros hypot atan2 arctanh f pmu HH HA HO M. unfold f_affinity. rewrite !map_length, !map_map. unfold build. apply map_ext_in. intros i I. apply map_ext_in. intros j J.
  apply in_seq in I. apply in_seq in J. set (dflt := (fzero, fzero, fzero, fzero) : fmom).
  assert (N : forall B (g : fmom -> B) (d : B) (k : nat), (k < length pmu)%nat -> nth k (map g pmu) d = g (nth k pmu dflt)).
  { intros B g d k L. rewrite (nth_indep _ d (g dflt)) by (rewrite map_length; exact L). apply map_nth. }
  rewrite !N by lia. pose proof (fun a b => delta_mirror hypot atan2 arctanh f a b HH HA HO M) as D. cbv zeta in D. rewrite !D. reflexivity.
Qed.

(** * Mass of a set *)
Definition is0 (x : f64) : Prop := exists s, x = B754_zero s.
Definition opp (x y : f64) : Prop := y = fneg x \/ (is0 x /\ is0 y).
Lemma is0_swap : forall x y, fadd (fneg x) (fneg y) = fneg (fadd x y) \/ (is0 (fadd (fneg x) (fneg y)) /\ is0 (fadd x y)).
Proof.
  intros x y. destruct x as [s|s| |s m e Hb], y as [t|t| |t n f Hc]; try (left; reflexivity).
  - right. destruct s, t; split; eexists; reflexivity.
  - left. destruct s, t; reflexivity.
  - cbn [fadd fneg Bopp Bplus]. rewrite naive_opp. destruct (Z.eq_dec (Fplus_naive s m e t n f (Z.min e f)) 0) as [Z|Z].
    + right. rewrite Z. split; eexists; reflexivity.
    + left. apply B2SF_inj. rewrite normalize_neg by exact Z. rewrite <- b2sf_neg. reflexivity.
Qed.
Lemma opp_add a b c d : opp a c -> opp b d -> opp (fadd a b) (fadd c d).
Proof.
  intros [-> | [[s ->] [t ->]]] [-> | [[s' ->] [t' ->]]].
  - destruct (is0_swap a b) as [E|[E1 E2]]; [left; exact E | right; split; assumption].
  - destruct a as [sa|sa| |sa ma ea Ha]; try (left; reflexivity). right. destruct sa, s', t'; split; eexists; reflexivity.
  - destruct b as [sa|sa| |sa ma ea Ha]; try (left; reflexivity). right. destruct sa, s, t; split; eexists; reflexivity.
  - right. destruct s, t, s', t'; split; eexists; reflexivity.
Qed.
(** The same order of additions, of the opposite numbers. *)
Fixpoint negated (t : order) : order := match t with Leaf x => Leaf (fneg x) | Node l r => Node (negated l) (negated r) end.
Lemma negated_leaves t : leaves (negated t) = map fneg (leaves t).
Proof. induction t as [x|l IHl r IHr]; [reflexivity|]. cbn [negated leaves]. rewrite IHl, IHr, map_app. reflexivity. Qed.
Lemma negated_sum t : opp (f_sum t) (f_sum (negated t)).
Proof. induction t as [x|l IHl r IHr]; [left; reflexivity|]. apply opp_add; assumption. Qed.
Lemma opp_finite x y : opp x y -> is_finite y = is_finite x.
Proof. intros [-> | [[s ->] [t ->]]]; [apply is_finite_Bopp | reflexivity]. Qed.
Lemma opp_square x y : opp x y -> fmul y y = fmul x x.
Proof.
  intros [-> | [[s ->] [t ->]]]; [|destruct s, t; reflexivity]. rewrite fmul_neg_r, (fmul_comm (fneg x)), fmul_neg_r, fneg_neg. reflexivity.
Qed.
Lemma negated_quiet t : quiet (negated t) = quiet t.
Proof.
  induction t as [x|l IHl r IHr]; cbn [negated quiet]; [rewrite (opp_finite (f_sum (Leaf x)) (f_sum (Leaf (fneg x)))) by (left; reflexivity); reflexivity|].
  pose proof (opp_finite _ _ (negated_sum (Node l r))) as E. cbn [negated] in E. rewrite E, IHl, IHr. reflexivity.
Qed.
(** combined_mass of a mirrored set, its sums taken in the same order, is the same double (0.0 on overflow in both). *)
Theorem C247_mass : forall tx ty tz te t,
  f_combined_mass (negated tx) ty tz te t = f_combined_mass tx ty tz te t /\ f_combined_mass tx (negated ty) tz te t = f_combined_mass tx ty tz te t /\
  f_combined_mass tx ty (negated tz) te t = f_combined_mass tx ty tz te t /\
  (** where the four terms that [t] adds are themselves the same doubles *)
  f_minkowski (f_sum (negated tx)) (f_sum ty) (f_sum tz) (f_sum te) = f_minkowski (f_sum tx) (f_sum ty) (f_sum tz) (f_sum te) /\
  f_minkowski (f_sum tx) (f_sum (negated ty)) (f_sum tz) (f_sum te) = f_minkowski (f_sum tx) (f_sum ty) (f_sum tz) (f_sum te) /\
  f_minkowski (f_sum tx) (f_sum ty) (f_sum (negated tz)) (f_sum te) = f_minkowski (f_sum tx) (f_sum ty) (f_sum tz) (f_sum te) /\
  leaves (negated tx) = map fneg (leaves tx) /\ leaves (negated ty) = map fneg (leaves ty) /\ leaves (negated tz) = map fneg (leaves tz).
Proof.
  intros tx ty tz te t. pose proof (opp_square _ _ (negated_sum tx)) as X. pose proof (opp_square _ _ (negated_sum ty)) as Y. pose proof (opp_square _ _ (negated_sum tz)) as Z.
  unfold f_combined_mass, f_minkowski. cbn [forallb]. rewrite !negated_quiet, X, Y, Z, !negated_leaves. repeat split.
Qed.

(** For events: every result that combined_mass may have for an event, it may have for its mirror image (with the same weights). *)
Lemma map2_mirror c f (h : f64 -> f64) ws ps : (forall w p, c (f_wmul w (f p)) = h (c (f_wmul w p))) -> map c (map2 f_wmul ws (map f ps)) = map h (map c (map2 f_wmul ws ps)).
Proof.
  intros H. revert ps. induction ws as [|w ws IH]; intros [|p ps]; try reflexivity. cbn [map map2]. rewrite IH, H. reflexivity.
Qed.
Lemma map_same (l : list f64) : map (fun x => x) l = l. Proof. apply map_id. Qed.
Theorem C247_event_mass : forall f ws ps m, f = mirror_x \/ f = mirror_y \/ f = mirror_z ->
  f_weighted_mass ws ps m -> f_weighted_mass ws (map f ps) m.
Proof.
  intros f ws ps m F (tx & ty & tz & te & t & PX & PY & PZ & PE & PT & ->).
  assert (K : forall w p, fmul w (fneg p) = fneg (fmul w p)) by apply fmul_neg_r.
  assert (NP : forall t' l, Permutation (leaves t') l -> Permutation (leaves (negated t')) (map fneg l)) by (intros t' l P; rewrite negated_leaves; apply Permutation_map, P).
  destruct (C247_mass tx ty tz te t) as (A1 & A2 & A3 & B1 & B2 & B3 & _).
  destruct F as [-> | [-> | ->]]; [exists (negated tx), ty, tz, te, t | exists tx, (negated ty), tz, te, t | exists tx, ty, (negated tz), te, t].
  - rewrite (map2_mirror mx _ fneg), (map2_mirror my _ (fun x => x)), (map2_mirror mz _ (fun x => x)), (map2_mirror me _ (fun x => x)), !map_same, A1, B1 by (intros; first [reflexivity | apply K]).
    split; [apply NP; exact PX|]. repeat (split; [assumption|]). reflexivity.
  - rewrite (map2_mirror mx _ (fun x => x)), (map2_mirror my _ fneg), (map2_mirror mz _ (fun x => x)), (map2_mirror me _ (fun x => x)), !map_same, A2, B2 by (intros; first [reflexivity | apply K]).
    split; [assumption|]. split; [apply NP; exact PY|]. repeat (split; [assumption|]). reflexivity.
  - rewrite (map2_mirror mx _ (fun x => x)), (map2_mirror my _ (fun x => x)), (map2_mirror mz _ fneg), (map2_mirror me _ (fun x => x)), !map_same, A3, B3 by (intros; first [reflexivity | apply K]).
    split; [assumption|]. split; [assumption|]. split; [apply NP; exact PZ|]. repeat (split; [assumption|]). reflexivity.
Qed.

(** Stand-ins with the contracts asked for (|a| + |b| for hypot, y for atan2, the identity for arctanh), and an event of two particles. *)
Definition c247_hypot (a b : f64) : f64 := fadd (fabs a) (fabs b).
Definition c247_pmu : list fmom := [(fone, lit 2 0, lit 1 0, lit 4 0); (lit 3 0, fone, lit (-4) 0, lit 8 0)].
Example C247_case : symmetric_hypot c247_hypot /\ odd_atan2 (fun y _ => y) /\ odd_fun (fun x => x) /\
  map (map B2SF) (f_affinity c247_hypot (fun y _ => y) (fun x => x) c247_pmu) = map (map B2SF) [[fzero; lit 23 (-2)]; [lit 23 (-2); fzero]] /\
  map (map B2SF) (f_affinity c247_hypot (fun y _ => y) (fun x => x) (map mirror_y c247_pmu)) = map (map B2SF) [[fzero; lit 23 (-2)]; [lit 23 (-2); fzero]].
Proof.
  split; [intros a b; unfold c247_hypot; rewrite !fabs_neg; repeat split; apply fadd_comm|]. split; [intros y x; reflexivity|]. split; [intros x; reflexivity|].
  split; vm_compute; reflexivity.
Qed.

Print Assumptions C247_coordinates.
Print Assumptions C247_distances.
Print Assumptions C247_mass.
Print Assumptions C247_event_mass.
