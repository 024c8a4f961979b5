(** Clustering coefficients from momenta, in doubles and floats (C234). *)
From Coq Require Import ZArith Reals Ratan List Bool String Lia Lra Permutation.
From Flocq Require Import Core BinarySingleNaN.
From Verif Require Import Prelude Keys SpecReal SpecIEEE SpecDist RealBase Kinem KinemProofs Par DeltaR DeltaRProofs P_Kinem P_DeltaR SpecMatrix Matrix P_Matrix Floats FloatBase FloatOps Floats3 Floats4 P_Float P_Float8 P_Float9 P_Float19 P_Float23 P_Graph Floats12 P_Float24.
From Verif Require Import Floats13.
Import ListNotations.
Open Scope R_scope.

Lemma adj_at2 (adj : list (list bool)) n a b : shape n n adj -> (a < n)%nat -> (b < n)%nat -> at2 adj a b = Some (adj_at adj a b).
Proof.
  intros (L & F) A B. unfold at2, adj_at. destruct (nth_error adj a) as [row|] eqn:E; [|apply nth_error_None in E; lia]. rewrite (nth_error_nth _ _ _ E).
  rewrite Forall_forall in F. specialize (F _ (nth_error_In _ _ E)). destruct (nth_error row b) as [x|] eqn:E'; [|apply nth_error_None in E'; lia]. rewrite (nth_error_nth _ _ _ E'). reflexivity.
Qed.
Lemma coefficient_ext n near near' i c : (i < n)%nat -> (forall a b, (a < n)%nat -> (b < n)%nat -> a <> b -> near a b = near' a b) -> coefficient n near i c -> coefficient n near' i c.
Proof.
  intros Hi H. unfold coefficient.
  assert (E : SpecDist.neighbours n near i = SpecDist.neighbours n near' i).
  { unfold SpecDist.neighbours. apply filter_ext_in. intros j Hj. apply in_seq in Hj. destruct (Nat.eqb_spec i j); [reflexivity|]. rewrite H; [reflexivity | lia | lia | assumption]. }
  rewrite <- E. assert (LP : linked_pairs near (SpecDist.neighbours n near i) = linked_pairs near' (SpecDist.neighbours n near i)).
  { unfold linked_pairs. apply filter_ext_in. intros (a, b) I. apply in_prod_iff in I as (A & B). apply filter_In in A as (A & _). apply filter_In in B as (B & _). apply in_seq in A. apply in_seq in B. cbn [fst snd].
    destruct (Nat.eqb_spec a b); [reflexivity|]. rewrite H; [reflexivity | lia | lia | assumption]. }
  rewrite <- LP. tauto.
Qed.

(** For at most 4096 particles, none of whose distances is within rounding of the radius: one coefficient per particle, within 2^-23 of the
    exact one, 0 or 1 exactly when the exact one is. *)
Theorem C234_distribution : forall hypot atan2 arctanh k, 1 <= k <= 1000 -> good_hypot k hypot -> good_atan2 k atan2 -> good_atanh k arctanh ->
  forall pmu r near, (forall p, In p pmu -> prunable k p) -> fin r -> (Z.of_nat (length pmu) <= 4096)%Z ->
  (forall i j d, i <> j -> separated (event_of pmu) i j d -> blur_between k pmu i j d < Rabs (d - val r)) ->
  (forall i j, near i j = true <-> P_Graph.neighbours (event_of pmu) (val r) i j) ->
  length (f_cluster_coeff_distbn hypot atan2 arctanh pmu r) = length pmu /\
  forall i, (i < length pmu)%nat -> exists c c', nth_error (f_cluster_coeff_distbn hypot atan2 arctanh pmu r) i = Some c' /\ sfin c' /\ 0 <= sval c' <= 1 /\
    coefficient (length pmu) near i c /\ Rabs (sval c' - c) <= / 2 ^ 23 /\ (sval c' = 1 <-> c = 1) /\ (sval c' = 0 <-> c = 0).
Proof.
  intros hypot atan2 arctanh k K GH GA GT pmu r near HP FR Hn BL NEAR. set (n := length pmu) in *. unfold f_cluster_coeff_distbn.
  set (M := f_affinity hypot atan2 arctanh pmu). set (adj := fill_diagonal _ false).
  assert (SA : shape n n adj) by (apply shape_fill, shape_map, f_aff_shape). pose proof (event_pt k pmu HP) as PT.
  assert (AT : forall a b, (a < n)%nat -> (b < n)%nat -> a <> b -> adj_at adj a b = near a b).
  { intros a b A B N. destruct (event_separated pmu a b A B PT) as (d & S & _). destruct (f_aff_entry hypot atan2 arctanh k K GH GA GT pmu HP a b d N S) as (x & Hx & Fx & Ax).
    pose proof (adj_at2 adj n a b SA A B) as E. unfold adj in E at 1. rewrite at2_fill in E. destruct (Nat.eqb_spec a b) as [|_]; [contradiction|]. rewrite at2_map in E. unfold M in E. rewrite Hx in E. cbn [option_map] in E. injection E as <-.
    specialize (BL a b d N S). apply eq_true_iff_eq. rewrite NEAR, flt_ok by assumption. apply Rabs_le_inv in Ax. split.
    - intros L. split; [exact N|]. exists d. split; [exact S|]. unfold Rabs in BL. destruct (Rcase_abs (d - val r)); lra.
    - intros (_ & d' & S' & L). rewrite (separated_unique _ _ _ _ _ PT S' S) in L. unfold Rabs in BL. destruct (Rcase_abs (d - val r)); lra. }
  assert (G : simple_graph n adj).
  { destruct SA as (L & F). split; [exact L|]. split; [apply Forall_forall, F|]. intros i. destruct (Nat.lt_ge_cases i n) as [Hi|Hi].
    - pose proof (adj_at2 adj n i i (Logic.conj L F) Hi Hi) as E. unfold adj in E at 1. rewrite at2_fill, Nat.eqb_refl, at2_map in E. unfold M in E. rewrite f_aff_diag in E by exact Hi. cbn [option_map] in E. congruence.
    - unfold adj_at. rewrite (nth_overflow adj) by lia. destruct i; reflexivity. }
  split; [unfold f_clust_coeffs; rewrite map_length, seq_length; apply SA|]. intros i Hi.
  set (nb := SpecDist.neighbours n (adj_at adj) i). set (links := length (linked_pairs (adj_at adj) nb)). set (pairs := (length nb * (length nb - 1))%nat).
  assert (ND : NoDup nb) by (apply NoDup_filter, seq_NoDup). pose proof (pairs_bound (adj_at adj) nb ND) as PB. fold links in PB. fold pairs in PB.
  assert (LN : (length nb <= n)%nat). { rewrite <- (seq_length n 0). apply NoDup_incl_length; [exact ND|]. intros x Hx. apply filter_In in Hx. apply Hx. }
  assert (LB : (Z.of_nat links <= 2 ^ 24)%Z). { assert (Z.of_nat pairs <= Z.of_nat n * Z.of_nat n)%Z by (unfold pairs; nia). assert (Z.of_nat n * Z.of_nat n <= 4096 * 4096)%Z by nia. lia. }
  destruct (C173_coefficient n adj i G ltac:(lia) Hi LB) as (c' & E & F & B & Z0 & Z1). fold nb in Z0, Z1. fold links in Z1. fold pairs in Z1.
  destruct (Nat.lt_ge_cases (length nb) 2) as [L|L].
  - exists 0, c'. specialize (Z0 L). split; [exact E|]. split; [exact F|]. split; [exact B|]. split.
    + apply (coefficient_ext n (adj_at adj) near i 0 Hi AT). unfold coefficient. fold nb. destruct (Nat.ltb_spec (length nb) 2); [reflexivity | lia].
    + rewrite Z0. replace (0 - 0) with 0 by ring. rewrite Rabs_R0. split; [left; apply Rinv_0_lt_compat, pow_lt; lra|]. tauto.
  - assert (PP : 0 < INR pairs) by (apply lt_0_INR; unfold pairs; nia). assert (EP : INR pairs = INR (length nb) * (INR (length nb) - 1)) by (unfold pairs; rewrite mult_INR, minus_INR by lia; reflexivity).
    destruct (Z1 L) as (A & ONE & ZERO). exists (INR links / INR pairs), c'. split; [exact E|]. split; [exact F|]. split; [exact B|]. split.
    + apply (coefficient_ext n (adj_at adj) near i _ Hi AT). unfold coefficient. fold nb. destruct (Nat.ltb_spec (length nb) 2); [lia|]. rewrite <- EP. fold links. field. lra.
    + split; [exact A|]. split.
      * rewrite ONE. split; intros H; [rewrite H; field; lra|]. apply INR_eq. apply Rmult_eq_reg_r with (/ INR pairs); [|apply Rinv_neq_0_compat; lra]. unfold Rdiv in H. rewrite H. field. lra.
      * rewrite ZERO. split; intros H; [rewrite H; cbn [INR]; unfold Rdiv; ring|]. apply INR_eq. cbn [INR]. apply Rmult_eq_reg_r with (/ INR pairs); [|apply Rinv_neq_0_compat; lra]. unfold Rdiv in H. rewrite H. ring.
Qed.
Print Assumptions C234_distribution.

(** The three particles of C232's case and the radius 5/2: particle 1 is near both others, which are not near each other. *)
Definition near_one (i j : nat) : bool := (negb (Nat.eqb i j) && Nat.ltb i 3 && Nat.ltb j 3 && (Nat.eqb i 1 || Nat.eqb j 1))%bool.
Example C234_case : (forall i j, near_one i j = true <-> P_Graph.neighbours (event_of three_doubles) (val (lit 5 (-1))) i j) /\
  (forall i j d, i <> j -> separated (event_of three_doubles) i j d -> blur_between 2 three_doubles i j d < Rabs (d - val (lit 5 (-1)))) /\ coefficient 3 near_one 1 0.
Proof.
  destruct C232_case as (_ & _ & _ & HP & _ & V & B & _ & _). split; [|split].
  - rewrite V. pose proof PI_4. assert (P3 : 3 < PI) by (pose proof PI2_3_2; lra).
    assert (PT : forall p, In p three -> 0 < pt_sq p) by exact three_pt.
    assert (T : forall i j d, separated (event_of three_doubles) i j d <-> separated three i j d).
    { intros i j d. split; intros S; (eapply separated_energy; [|exact S]); rewrite three_event; unfold three; repeat (constructor; [split; [reflexivity | split; reflexivity]|]); constructor. }
    destruct three_all as (S01 & S10 & S21 & S12 & S20 & S02).
    intros i j. unfold P_Graph.neighbours. split.
    + intros N. assert (BB : (i < 3)%nat /\ (j < 3)%nat) by (unfold near_one in N; apply andb_true_iff in N as (N & _); apply andb_true_iff in N as (N & N2); apply andb_true_iff in N as (_ & N1); split; apply Nat.ltb_lt; assumption).
      destruct i as [|[|[|i]]]; destruct j as [|[|[|j]]]; try lia; try discriminate N; (split; [discriminate|]); exists (PI / 2); (split; [apply (proj2 (T _ _ _)); assumption | lra]).
    + intros (N & d & S & L). apply T in S.
      assert (BB : (i < 3)%nat /\ (j < 3)%nat). { destruct S as (p & q & g & Hp & Hq & _). split; [change 3%nat with (length three) | change 3%nat with (length three)]; apply nth_error_Some; congruence. }
      destruct i as [|[|[|i]]]; destruct j as [|[|[|j]]]; try lia; try reflexivity; exfalso; [pose proof (separated_unique _ _ _ _ _ PT S S02) | pose proof (separated_unique _ _ _ _ _ PT S S20)]; lra.
  - intros i j d N S. apply (B i j d N S).
  - unfold coefficient. cbn. ring.
Qed.
