(** Lemmas about the assignment cost and the assignment itself. *)
From Verif Require Import Prelude Keys SpecReal SpecDist SpecAssign RealBase Kinem KinemProofs Par DeltaR DeltaRProofs Assign.
From Coq Require Import Permutation Sorted Classical.
Open Scope R_scope.

(** ** The two parallel loops *)
Lemma dist_loop_result y1 y2 l r m0 m : runs (dist_loop y1 y2 l r) m0 m ->
  forall i j, (i < length l)%nat -> (j < length r)%nat ->
  m (i, j) = delta_pair (nthe y1 i) (nthe y2 j) (nthm l i) (nthm r j).
Proof.
  intros H i j Hi Hj. set (F := fun (i : nat) (c : cell) => fst c = i).
  destruct (fun HD => runs_disjoint F HD (dist_loop y1 y2 l r) m0 m H) as (A & _); [unfold F; congruence | |].
  { intros k p lc Hp. unfold dist_loop in Hp. rewrite nth_error_map', seq_nth_error in Hp. destruct (Nat.ltb k (length l)); [|discriminate]. cbn in Hp. injection Hp as <- <-.
    apply Forall_forall. intros a Ha. apply in_map_iff in Ha as (j' & <- & _). apply confined_put; [apply cell_eqb_eq | reflexivity]. }
  rewrite (A i (map (fun j => write i j (delta_pair (nthe y1 i) (nthe y2 j) (nthm l i) (nthm r j))) (seq 0 (length r))) tt); [| |reflexivity].
  - rewrite (write_map_solo i (fun j => delta_pair (nthe y1 i) (nthe y2 j) (nthm l i) (nthm r j))) by apply seq_NoDup. cbn [fst snd]. rewrite Nat.eqb_refl. cbn [andb].
    assert (EX : existsb (Nat.eqb j) (seq 0 (length r)) = true) by (apply existsb_exists; exists j; split; [apply in_seq; lia | apply Nat.eqb_refl]).
    rewrite EX. reflexivity.
  - unfold dist_loop. rewrite nth_error_map', seq_nth_error. destruct (Nat.ltb_spec i (length l)); [reflexivity|lia].
Qed.

Section Cost.
  Context (deg : nat -> nat -> ext).
  Lemma cost_solo i vpr p1 p2 (v : ext) js : NoDup js -> forall (m : mem cell ext) c,
    solo (map (fun j => fun v m =>
            (v, fun c => if cell_eqb (i, j) c
                         then cost_entry deg i j v vpr (m (i, j)) (nth i p1 0 - nth j p2 0) else m c)) js) v m c =
    if (Nat.eqb i (fst c) && existsb (Nat.eqb (snd c)) js)%bool
    then cost_entry deg i (snd c) v vpr (m c) (nth i p1 0 - nth (snd c) p2 0) else m c.
  Proof.
    induction js as [|j js IH]; intros ND m c; cbn [map solo]; [rewrite Bool.andb_false_r; reflexivity|].
    inversion ND as [|? ? NI ND']; subst. rewrite IH by exact ND'. cbn [existsb]. unfold cell_eqb. cbn [fst snd].
    destruct c as (i', k). cbn [fst snd]. destruct (Nat.eqb_spec i i') as [E|E]; [subst i'|reflexivity]. cbn [andb].
    rewrite (Nat.eqb_sym j k). destruct (Nat.eqb_spec k j) as [E'|E'].
    - subst k. cbn [orb]. destruct (existsb (Nat.eqb j) js) eqn:EX; [|reflexivity].
      apply existsb_exists in EX as (x & Hx & Ex). apply Nat.eqb_eq in Ex. subst x. contradiction.
    - cbn [orb]. destruct (existsb (Nat.eqb k) js); reflexivity.
  Qed.

  Lemma cost_loop_result vpr p1 p2 n1 n2 m1 m2 : runs (cost_loop deg vpr p1 p2 n1 n2) m1 m2 ->
    forall i j, (i < n1)%nat -> (j < n2)%nat ->
    m2 (i, j) = cost_entry deg i j (evar (map (fun k => m1 (i, k)) (seq 0 n2))) vpr (m1 (i, j)) (nth i p1 0 - nth j p2 0).
  Proof.
    intros H i j Hi Hj. set (F := fun (i : nat) (c : cell) => fst c = i).
    destruct (fun HD => runs_disjoint F HD (cost_loop deg vpr p1 p2 n1 n2) m1 m2 H) as (A & _); [unfold F; congruence | |].
    { intros k p lc Hp. unfold cost_loop in Hp. rewrite nth_error_map', seq_nth_error in Hp. destruct (Nat.ltb k n1); [|discriminate]. cbn in Hp.
      injection Hp as <- <-. constructor.
      - split; [|reflexivity]. intros l m m' Ag. cbn [fst snd]. split; [|exact Ag]. f_equal. apply map_ext. intros a. apply Ag. reflexivity.
      - apply Forall_forall. intros a Ha. apply in_map_iff in Ha as (j' & <- & _). split.
        + intros l m m' Ag. cbn [fst snd]. split; [reflexivity|]. intros c Hc. rewrite (Ag (k, j')) by reflexivity.
          destruct (cell_eqb (k, j') c); [reflexivity|apply Ag, Hc].
        + intros l m c Hc. cbn [snd]. destruct (cell_eqb (k, j') c) eqn:E; [|reflexivity]. apply cell_eqb_eq in E. subst c. exfalso. apply Hc. reflexivity. }
    rewrite (A i (fst (cost_body deg vpr p1 p2 n2 i)) NaN); [| |reflexivity].
    - unfold cost_body. cbn [fst solo]. rewrite cost_solo by apply seq_NoDup. cbn [fst snd]. rewrite Nat.eqb_refl. cbn [andb].
      assert (EX : existsb (Nat.eqb j) (seq 0 n2) = true) by (apply existsb_exists; exists j; split; [apply in_seq; lia | apply Nat.eqb_refl]).
      rewrite EX. reflexivity.
    - unfold cost_loop. rewrite nth_error_map', seq_nth_error. destruct (Nat.ltb_spec i n1); [reflexivity|lia].
  Qed.

  (** The cost matrix as a function of its inputs: the schedule does not matter. *)
  Definition dist_at (y1 y2 : list ext) (l r : list mom) (i j : nat) : ext :=
    delta_pair (nthe y1 i) (nthe y2 j) (nthm l i) (nthm r j).
  Definition cost_matrix (y1 y2 : list ext) (l r : list mom) : list (list ext) :=
    map (fun i => map (fun j =>
      cost_entry deg i j (evar (map (dist_at y1 y2 l r i) (seq 0 (length r)))) (1 / np_var (map pt r)) (dist_at y1 y2 l r i j)
        (nth i (map pt l) 0 - nth j (map pt r) 0)) (seq 0 (length r))) (seq 0 (length l)).
  Lemma assignment_cost_result y1 y2 l r out : assignment_cost deg y1 y2 l r out ->
    out = if Req_EM_T (np_var (map pt r)) 0 then Err ZeroDivisionError else Ok (cost_matrix y1 y2 l r).
  Proof.
    intros (m0 & m1 & R1 & H). cbv zeta in H. destruct (Req_EM_T (np_var (map pt r)) 0) as [E|N]; [exact H|]. destruct H as (m2 & R2 & ->). f_equal.
    unfold read_out, cost_matrix. apply map_ext_in. intros i Hi. apply in_seq in Hi. apply map_ext_in. intros j Hj. apply in_seq in Hj.
    rewrite (cost_loop_result _ _ _ _ _ _ _ R2) by lia. rewrite (dist_loop_result _ _ _ _ _ _ R1) by lia.
    f_equal. f_equal. apply map_ext_in. intros k Hk. apply in_seq in Hk. apply (dist_loop_result _ _ _ _ _ _ R1); lia.
  Qed.
  Lemma assignment_cost_exists y1 y2 l r : exists out, assignment_cost deg y1 y2 l r out.
  Proof.
    destruct (runs_exists _ (dist_loop y1 y2 l r) (fun _ => NaN) (le_n _)) as (m1 & R1).
    destruct (runs_exists _ (cost_loop deg (1 / np_var (map pt r)) (map pt l) (map pt r) (length l) (length r)) m1 (le_n _)) as (m2 & R2).
    unfold assignment_cost. destruct (Req_EM_T (np_var (map pt r)) 0) as [E|N].
    - exists (Err ZeroDivisionError), (fun _ => NaN), m1. split; [exact R1|reflexivity].
    - exists (Ok (read_out (length l) (length r) m2)), (fun _ => NaN), m1. split; [exact R1|]. exists m2. split; [exact R2|reflexivity].
  Qed.
End Cost.

Lemma np_var_variance l : np_var l = variance l.
Proof. unfold np_var, variance, mean, np_mean. rewrite map_length. reflexivity. Qed.

(** ** Matchings *)
Lemma sorted_full n l : StronglySorted lt l -> (forall x, In x l -> (x < n)%nat) -> length l = n -> l = seq 0 n.
Proof.
  assert (G : forall l k, StronglySorted lt l -> (forall x, In x l -> (k <= x < k + length l)%nat) -> l = seq k (length l)).
  { induction l0 as [|x l0 IH]; intros k HS HB; [reflexivity|]. cbn [length seq] in *.
    inversion HS as [|? ? HS' HF]; subst. rewrite Forall_forall in HF.
    assert (x = k).
    { destruct (Nat.eq_dec x k) as [|N]; [assumption|]. exfalso.
      assert (HB0 : forall y, In y l0 -> (x + 1 <= y < k + S (length l0))%nat) by (intros y Hy; specialize (HF y Hy); specialize (HB y (or_intror Hy)); lia).
      specialize (HB x (or_introl eq_refl)).
      assert (INC : incl l0 (seq (x + 1) (k + S (length l0) - (x + 1)))) by (intros y Hy; apply in_seq; specialize (HB0 y Hy); lia).
      assert (ND : NoDup l0). { clear - HS'. induction HS' as [|a l H IH HF]; constructor; [|assumption]. intros Ha. rewrite Forall_forall in HF. specialize (HF a Ha). lia. }
      pose proof (NoDup_incl_length ND INC) as L. rewrite seq_length in L. lia. }
    subst x. f_equal. apply IH; [exact HS'|]. intros y Hy. specialize (HF y Hy). specialize (HB y (or_intror Hy)). lia. }
  intros HS HB <-. apply G; [exact HS|]. intros x Hx. specialize (HB x Hx). lia.
Qed.

Lemma total_perm c a b : Permutation a b -> total c a = total c b.
Proof. intros P. unfold total. apply rsum_perm, Permutation_map, P. Qed.

Lemma sort_exists (a : list (nat * nat)) : NoDup (map fst a) -> exists b, Permutation a b /\ StronglySorted lt (map fst b).
Proof.
  assert (INS : forall x (b : list (nat * nat)), StronglySorted lt (map fst b) -> ~ In (fst x) (map fst b) ->
     exists b', Permutation (x :: b) b' /\ StronglySorted lt (map fst b')).
  { intros x b. induction b as [|y b IH]; intros HS NI.
    - exists [x]. split; [constructor; constructor|]. repeat constructor.
    - cbn [map] in HS. inversion HS as [|? ? HS' HF]; subst.
      destruct (lt_eq_lt_dec (fst x) (fst y)) as [[L|E]|L].
      + exists (x :: y :: b). split; [apply Permutation_refl|]. cbn [map]. constructor; [exact HS|]. constructor; [exact L|].
        eapply Forall_impl; [|exact HF]. intros; lia.
      + exfalso. apply NI. left. congruence.
      + destruct IH as (b' & P & S'); [exact HS'|intros Q; apply NI; right; exact Q|].
        exists (y :: b'). split; [eapply Permutation_trans; [apply perm_swap|]; constructor; exact P|]. cbn [map]. constructor; [exact S'|].
        apply Forall_forall. intros z Hz. apply (Permutation_in _ (Permutation_sym (Permutation_map fst P))) in Hz. cbn [map] in Hz.
        destruct Hz as [<-|Hz]; [exact L|]. rewrite Forall_forall in HF. apply HF, Hz. }
  induction a as [|x a IH]; intros ND; [exists []; split; constructor|]. cbn [map] in ND. inversion ND; subst.
  destruct IH as (b & P & S'); [assumption|]. destruct (INS x b S') as (b' & P' & S''); [intros Q; apply H1; apply (Permutation_in _ (Permutation_sym (Permutation_map fst P))), Q|].
  exists b'. split; [eapply Permutation_trans; [constructor; exact P|exact P']|exact S''].
Qed.

Lemma matching_perm n1 n2 a b : Permutation a b -> matching n1 n2 a -> matching n1 n2 b.
Proof.
  intros P (A & B & C & D). split; [|split; [|split]].
  - eapply Permutation_NoDup; [apply Permutation_map, P|exact A].
  - eapply Permutation_NoDup; [apply Permutation_map, P|exact B].
  - intros i j Hij. apply C. apply (Permutation_in _ (Permutation_sym P)), Hij.
  - rewrite <- (Permutation_length P). exact D.
Qed.
Lemma diag_nodup k : NoDup (map fst (map (fun i : nat => (i, i)) (seq 0 k))) /\ NoDup (map snd (map (fun i : nat => (i, i)) (seq 0 k))).
Proof. rewrite !map_map. cbn [fst snd]. rewrite map_id. split; apply seq_NoDup. Qed.
Lemma matching_exists n1 n2 : exists a, matching n1 n2 a.
Proof.
  exists (map (fun i => (i, i)) (seq 0 (Nat.min n1 n2))). destruct (diag_nodup (Nat.min n1 n2)). split; [assumption|]. split; [assumption|]. split.
  - intros i j Hij. apply in_map_iff in Hij as (k & E & Hk). injection E as <- <-. apply in_seq in Hk. lia.
  - rewrite map_length, seq_length. reflexivity.
Qed.
(** All lists of [k] elements of [l]. *)
Fixpoint words {A} (k : nat) (l : list A) : list (list A) :=
  match k with O => [[]] | S k' => flat_map (fun w => map (fun x => x :: w) l) (words k' l) end.
Lemma words_In {A} (l : list A) k w : length w = k -> (forall x, In x w -> In x l) -> In w (words k l).
Proof.
  revert k; induction w as [|x w IH]; intros k <- H; [left; reflexivity|]. cbn [length words]. apply in_flat_map. exists w. split.
  - apply IH; [reflexivity|]. intros y Hy. apply H. right; exact Hy.
  - apply in_map_iff. exists x. split; [reflexivity|]. apply H. left; reflexivity.
Qed.
Lemma finite_min {A} (P : A -> Prop) (f : A -> R) l : (exists x, In x l /\ P x) ->
  exists x, P x /\ forall y, In y l -> P y -> f x <= f y.
Proof.
  induction l as [|a l IH]; intros (x & Hx & Px); [destruct Hx|].
  destruct (classic (exists x, In x l /\ P x)) as [Q|Q].
  - destruct (IH Q) as (m & Pm & Hm). destruct (classic (P a)) as [Pa|Na].
    + destruct (Rle_dec (f a) (f m)) as [L|L].
      * exists a. split; [exact Pa|]. intros y [<-|Hy] Py; [lra|]. specialize (Hm y Hy Py). lra.
      * exists m. split; [exact Pm|]. intros y [<-|Hy] Py; [lra|]. apply Hm; assumption.
    + exists m. split; [exact Pm|]. intros y [<-|Hy] Py; [contradiction|]. apply Hm; assumption.
  - destruct Hx as [->|Hx]; [|exfalso; apply Q; exists x; split; assumption].
    exists x. split; [exact Px|]. intros y [<-|Hy] Py; [lra|]. exfalso. apply Q. exists y. split; assumption.
Qed.
Lemma best_matching_exists n1 n2 c : exists a, best_matching n1 n2 c a.
Proof.
  set (P := fun a => matching n1 n2 a /\ StronglySorted lt (map fst a)).
  set (L := words (Nat.min n1 n2) (list_prod (seq 0 n1) (seq 0 n2))).
  assert (HL : forall a, matching n1 n2 a -> In a L).
  { intros a (_ & _ & B & D). apply words_In; [exact D|]. intros (i, j) Hij. apply B in Hij. apply in_prod; apply in_seq; lia. }
  assert (SP : forall a, matching n1 n2 a -> exists b, P b /\ total c b = total c a).
  { intros a Ha. destruct (sort_exists a (proj1 Ha)) as (b & Pb & Sb). exists b. split; [split; [eapply matching_perm; eauto|exact Sb]|].
    symmetry. apply total_perm, Pb. }
  destruct (finite_min P (total c) L) as (a & (Ma & Sa) & Hm).
  { destruct (matching_exists n1 n2) as (a & Ha). destruct (SP a Ha) as (b & Pb & _). exists b. split; [apply HL, Pb|exact Pb]. }
  exists a. split; [exact Ma|]. split; [exact Sa|]. intros b Hb. destruct (SP b Hb) as (b' & Pb' & <-). apply Hm; [apply HL, Pb'|exact Pb'].
Qed.

(** With no more rows than columns every row is matched: the columns in row order are an injection. *)
Lemma best_matching_rows n1 n2 c a : (n1 <= n2)%nat -> best_matching n1 n2 c a ->
  length (map snd a) = n1 /\ NoDup (map snd a) /\ (forall j, In j (map snd a) -> (j < n2)%nat) /\
  a = combine (seq 0 n1) (map snd a) /\
  forall f, injection_below n1 n2 f -> total c a <= rsum (map (fun i => c i (f i)) (seq 0 n1)).
Proof.
  intros HN ((A & B & C & D) & HS & HM). rewrite Nat.min_l in D by exact HN.
  assert (ER : map fst a = seq 0 n1).
  { apply sorted_full; [exact HS| |rewrite map_length; exact D]. intros x Hx. apply in_map_iff in Hx as ((i, j) & <- & Hij). apply C in Hij. cbn; lia. }
  split; [rewrite map_length; exact D|]. split; [exact B|]. split; [|split].
  - intros j Hj. apply in_map_iff in Hj as ((i, k) & <- & Hik). apply C in Hik. cbn; lia.
  - rewrite <- ER. clear. induction a as [|(i, j) a IH]; [reflexivity|]. cbn. f_equal. exact IH.
  - intros f (F1 & F2). specialize (HM (map (fun i => (i, f i)) (seq 0 n1))).
    assert (HMM : matching n1 n2 (map (fun i => (i, f i)) (seq 0 n1))).
    { split; [|split; [|split]].
      - rewrite map_map. cbn [fst]. rewrite map_id. apply seq_NoDup.
      - rewrite map_map. cbn [snd]. assert (G : forall l, (forall i, In i l -> (i < n1)%nat) -> NoDup l -> NoDup (map f l)).
        { clear - F2. induction l as [|i l IH]; intros HB ND; [constructor|]. inversion ND; subst. cbn. constructor.
          - intros Q. apply in_map_iff in Q as (j & E & Hj). apply F2 in E; [subst; contradiction|apply HB; right; exact Hj|apply HB; left; reflexivity].
          - apply IH; [intros; apply HB; right; assumption|assumption]. }
        apply G; [|apply seq_NoDup]. intros i Hi. apply in_seq in Hi. lia.
      - intros i j Hij. apply in_map_iff in Hij as (k & E & Hk). injection E as <- <-. apply in_seq in Hk. split; [lia|]. apply F1. lia.
      - rewrite map_length, seq_length, Nat.min_l by exact HN. reflexivity. }
    specialize (HM HMM). unfold total at 2 in HM. rewrite map_map in HM. exact HM.
Qed.
