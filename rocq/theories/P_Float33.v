(** C248: distances of selected particles, in IEEE doubles. *)
From Coq Require Import ZArith List Bool Lia.
From Flocq Require Import Core BinarySingleNaN.
From Verif Require Import Prelude Keys SpecIEEE Matrix Floats FloatBase FloatOps P_Float Floats3 Floats12 P_Matrix.
From Verif Require Import P_Float32 SpecDist.
Import ListNotations.
Open Scope nat_scope.

(** * Vocabulary *)
(** The rows of [sel] are, in order, the rows of [l] at the positions [ps]. *)
Definition rows_at {A} (l : list A) (ps : list nat) (sel : list A) : Prop := map (nth_error l) ps = map Some sel.

Section Sel.
Variables (hypot atan2 : f64 -> f64 -> f64) (arctanh : f64 -> f64).
Hypothesis HH : symmetric_hypot hypot.
Hypothesis HA : odd_atan2 atan2.
Let eta (p : fmom) := f_eta hypot arctanh (mx p) (my p) (mz p).
Let D (p q : fmom) := f_delta hypot atan2 (eta p) (eta q) (mx p, my p) (mx q, my q).
Let dflt : fmom := (fzero, fzero, fzero, fzero).
Let cell (l : list fmom) i j := if Nat.eqb i j then fzero else D (nth i l dflt) (nth j l dflt).
Lemma aff_cells l : f_affinity hypot atan2 arctanh l = map (fun i => map (cell l i) (seq 0 (length l))) (seq 0 (length l)).
Proof.
  unfold f_affinity, build. apply map_ext_in. intros i I. apply map_ext_in. intros j J. apply in_seq in I. apply in_seq in J.
  assert (N : forall B (g : fmom -> B) (d : B) (k : nat), k < length l -> nth k (map g l) d = g (nth k l dflt)).
  { intros B g d k L. rewrite (nth_indep _ d (g dflt)) by (rewrite map_length; exact L). apply map_nth. }
  unfold cell. destruct (Nat.eqb_spec i j); [reflexivity|]. rewrite !N by lia. destruct (Nat.ltb_spec i j); [reflexivity|].
  apply C140_symmetric; [intros; apply HH | intros; apply HH | exact HA].
Qed.
Lemma rows_nth l ps sel a : rows_at l ps sel -> a < length ps -> nth a sel dflt = nth (nth a ps 0) l dflt /\ nth a ps 0 < length l.
Proof.
  intros R L. assert (E : nth_error (map (nth_error l) ps) a = nth_error (map Some sel) a) by (rewrite R; reflexivity).
  rewrite !nth_error_map in E. rewrite (nth_error_nth' ps 0 L) in E. cbn [option_map] in E.
  assert (LS : a < length sel). { apply (f_equal (@length _)) in R. rewrite !map_length in R. lia. }
  rewrite (nth_error_nth' sel dflt LS) in E. cbn [option_map] in E. injection E as E. split; [symmetry; apply nth_error_nth, E | apply nth_error_Some; congruence].
Qed.
Lemma sel_cell l ps sel a b : rows_at l ps sel -> a < length ps -> b < length ps -> (nth a ps 0 = nth b ps 0 -> a = b) ->
  cell sel a b = cell l (nth a ps 0) (nth b ps 0).
Proof.
  intros R La Lb I. destruct (rows_nth l ps sel a R La) as (E1 & _). destruct (rows_nth l ps sel b R Lb) as (E2 & _). unfold cell. rewrite E1, E2.
  destruct (Nat.eqb_spec a b) as [->|N]; [rewrite Nat.eqb_refl; reflexivity|]. destruct (Nat.eqb_spec (nth a ps 0) (nth b ps 0)); [exfalso; auto | reflexivity].
Qed.
Lemma at2_aff l i j : i < length l -> j < length l -> at2 (f_affinity hypot atan2 arctanh l) i j = Some (cell l i j).
Proof.
  intros Hi Hj. rewrite aff_cells. change (at2 (build (length l) (length l) (cell l)) i j = Some (cell l i j)). rewrite at2_build.
  apply Nat.ltb_lt in Hi. apply Nat.ltb_lt in Hj. rewrite Hi, Hj. reflexivity.
Qed.
Lemma sel_at2 l ps sel a b i j : rows_at l ps sel -> nth_error ps a = Some i -> nth_error ps b = Some j -> (i = j -> a = b) ->
  exists d, at2 (f_affinity hypot atan2 arctanh l) i j = Some d /\ at2 (f_affinity hypot atan2 arctanh sel) a b = Some d.
Proof.
  intros R A B I. assert (La : a < length ps) by (apply nth_error_Some; congruence). assert (Lb : b < length ps) by (apply nth_error_Some; congruence).
  pose proof (nth_error_nth ps a 0 A) as NA. pose proof (nth_error_nth ps b 0 B) as NB.
  destruct (rows_nth l ps sel a R La) as (_ & L1). destruct (rows_nth l ps sel b R Lb) as (_ & L2).
  assert (LS : length sel = length ps). { apply (f_equal (@length _)) in R. rewrite !map_length in R. lia. }
  exists (cell l i j). split; [apply at2_aff; congruence|]. rewrite at2_aff by lia. f_equal. rewrite <- NA, <- NB. apply (sel_cell l ps sel a b R La Lb). rewrite NA, NB. exact I.
Qed.
End Sel.

Lemma some_inj {A} (l r : list A) : map Some l = map Some r -> l = r.
Proof. revert r. induction l as [|x l IH]; intros [|y r] H; try discriminate H; [reflexivity|]. cbn in H. injection H as -> H. f_equal. apply IH, H. Qed.
Lemma compress_seq m n : length m = n -> compress m (seq 0 n) = positions m.
Proof.
  intros L. apply some_inj. rewrite <- compress_positions by (rewrite seq_length; exact L). apply map_ext_in. intros i I. apply positions_In in I.
  assert (i < n) by (rewrite <- L; apply nth_error_Some; congruence). rewrite (nth_error_nth' _ 0) by (rewrite seq_length; assumption). rewrite seq_nth by assumption. reflexivity.
Qed.
Lemma compress_NoDup {A} m (l : list A) : NoDup l -> NoDup (compress m l).
Proof.
  revert l. induction m as [|b m IH]; intros [|x l] N; try destruct b; cbn [compress]; try constructor; inversion N; subst; auto.
  intros I. apply compress_In in I as (i & _ & E). apply nth_error_In in E. contradiction.
Qed.
Lemma positions_distinct m : NoDup (positions m).
Proof. rewrite <- (compress_seq m _ eq_refl). apply compress_NoDup, seq_NoDup. Qed.
Lemma list_nths {A} (l : list A) d : l = map (fun a => nth a l d) (seq 0 (length l)).
Proof. apply nth_ext with d d; [rewrite map_length, seq_length; reflexivity|]. intros n L. rewrite (nth_indep (map _ _) d (nth 0 l d)) by (rewrite map_length, seq_length; exact L).
  rewrite (map_nth (fun a => nth a l d) (seq 0 (length l)) 0 n). rewrite seq_nth by exact L. reflexivity. Qed.

Lemma map_nths {A B} (f : A -> B) (l : list A) d : map f l = map (fun a => f (nth a l d)) (seq 0 (length l)).
Proof. rewrite (list_nths l d) at 1. apply map_map. Qed.
Lemma cells_at {B} (C C' : nat -> nat -> B) ps : (forall a b, a < length ps -> b < length ps -> C a b = C' (nth a ps 0) (nth b ps 0)) ->
  map (fun a => map (C a) (seq 0 (length ps))) (seq 0 (length ps)) = map (fun i => map (C' i) ps) ps.
Proof.
  intros H. rewrite (map_nths _ ps 0). apply map_ext_in. intros a IA. rewrite (map_nths _ ps 0). apply map_ext_in. intros b IB. apply in_seq in IA. apply in_seq in IB. apply H; lia.
Qed.

(** * C248 *)
(** Every entry of the distances of a selection is the entry for the particles selected; a particle taken twice is left out. *)
Theorem C248_selection : forall hypot atan2 arctanh, symmetric_hypot hypot -> odd_atan2 atan2 -> forall pmu k sel, getkey pmu k = Ok sel ->
  exists ps, rows_at pmu ps sel /\ length ps = length sel /\
  forall a b i j, nth_error ps a = Some i -> nth_error ps b = Some j -> (i = j -> a = b) ->
  exists d, at2 (f_affinity hypot atan2 arctanh pmu) i j = Some d /\ at2 (f_affinity hypot atan2 arctanh sel) a b = Some d.
Proof.
  intros hypot atan2 arctanh HH HA pmu k sel G. unfold getkey in G. destruct (resolve (length pmu) k) as [ps|] eqn:RK; [|discriminate]. cbn in G.
  exists ps. assert (R : rows_at pmu ps sel).
  { clear RK. unfold rows_at. revert sel G. induction ps as [|i ps IH]; intros sel G; cbn in G; [injection G as <-; reflexivity|].
    unfold get at 1 in G. destruct (nth_error pmu i) as [p|] eqn:E; [|discriminate]. cbn in G. destruct (mapM (get pmu) ps) as [s|] eqn:M; [|discriminate]. cbn in G. injection G as <-.
    cbn [map]. rewrite E. f_equal. apply IH. reflexivity. }
  split; [exact R|]. split; [apply (f_equal (@length _)) in R; rewrite !map_length in R; exact R|]. intros a b i j. apply sel_at2; assumption.
Qed.
(** Masking the event, or both axes of its matrix, is the same. *)
Theorem C248_mask : forall hypot atan2 arctanh, symmetric_hypot hypot -> odd_atan2 atan2 -> forall pmu m, length m = length pmu ->
  f_affinity hypot atan2 arctanh (compress m pmu) = map (compress m) (compress m (f_affinity hypot atan2 arctanh pmu)).
Proof.
  intros hypot atan2 arctanh HH HA pmu m L. rewrite !(aff_cells hypot atan2 arctanh HH HA). set (ps := positions m).
  assert (R : rows_at pmu ps (compress m pmu)) by (apply compress_positions, L).
  assert (LS : length (compress m pmu) = length ps). { pose proof R as R'. apply (f_equal (@length _)) in R'. rewrite !map_length in R'. symmetry; exact R'. }
  rewrite compress_map, (compress_seq m _ L), map_map. fold ps.
  assert (ND : NoDup ps) by apply positions_distinct. rewrite LS. erewrite (map_ext (fun x => compress m _)); [|intros i; rewrite compress_map, (compress_seq m _ L); fold ps; reflexivity].
  apply cells_at. intros a b La Lb. apply (sel_cell hypot atan2 arctanh pmu ps (compress m pmu) a b R La Lb). intros E. apply (proj1 (NoDup_nth ps 0) ND a b La Lb E).
Qed.

(** Three particles, the middle one masked out (stand-ins for the library as in C247_case). *)
Definition c248_pmu : list fmom := [(fone, lit 2 0, lit 1 0, lit 4 0); (fone, fone, fone, lit 2 0); (lit 3 0, fone, lit (-4) 0, lit 8 0)].
Example C248_case : symmetric_hypot c247_hypot /\ odd_atan2 (fun y _ => y) /\
  getkey c248_pmu (KMask [true; false; true]) = Ok c247_pmu /\
  map (map B2SF) (map (compress [true; false; true]) (compress [true; false; true] (f_affinity c247_hypot (fun y _ => y) (fun x => x) c248_pmu))) =
    map (map B2SF) [[fzero; lit 23 (-2)]; [lit 23 (-2); fzero]].
Proof. destruct C247_case as (A & B & _). split; [exact A|]. split; [exact B|]. split; [reflexivity|]. vm_compute. reflexivity. Qed.

Print Assumptions C248_selection.
Print Assumptions C248_mask.
